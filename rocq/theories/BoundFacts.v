(** Proofs about the where clause of a generated impl. *)
From Verif Require Import Attr AttrSpec AttrFacts Ast AstFacts Derive DeriveSpec DeriveFacts4 Bound BoundSpec.
From Coq Require Import Arith Lia.

Fixpoint rty_size (t : rty) : nat :=
  match t with
  | RPath q _ segs => S ((match q with Some t' => rty_size t' | None => 0 end) +
      list_sum (map (fun s => list_sum (map rty_size (snd s))) segs))
  | RGroup t' => S (rty_size t')
  | RComposite l => S (list_sum (map rty_size l))
  | RMacro => 1
  end.
Lemma list_sum_In {X} (f : X -> nat) x l : In x l -> f x <= list_sum (map f l).
Proof. induction l as [|y l IH]; cbn; [tauto|]. intros [->|H]; [lia|]. specialize (IH H). unfold list_sum in IH. lia. Qed.


Lemma ends_in_phantom_iff segs : ends_in_phantom segs = false <-> (forall before args, segs <> before ++ [(u "PhantomData", args)]).
Proof.
  induction segs as [|[n a] segs IH]; cbn [ends_in_phantom].
  - split; auto. intros _ [|] args; discriminate.
  - destruct segs as [|s segs].
    + destruct (str_eq_dec n PHANTOM_DATA) as [->|Hn].
      * split; [discriminate|]. intros H. destruct (H [] a). reflexivity.
      * split; auto. intros _ [|x before] args; cbn; intros [=]; subst; [now apply Hn|]. destruct before; discriminate.
    + rewrite IH. split.
      * intros H [|x before] args He; [discriminate|]. injection He as _ He. eapply H; eauto.
      * intros H before args He. apply (H ((n, a) :: before) args). cbn. now rewrite He.
Qed.

Lemma visit_iff T t : In T (visit_type t) <-> mentions T t.
Proof.
  remember (rty_size t) as k eqn:Hk. assert (Hle : rty_size t <= k) by lia. clear Hk.
  revert t Hle. induction k as [|k IH]; intros t Hle; [destruct t; cbn in Hle; lia|].
  destruct t as [q leading segs|t|l|]; cbn [visit_type].
  - assert (Hq : forall t', q = Some t' -> In T (visit_type t') <-> mentions T t').
    { intros t' ->. apply IH. cbn in Hle. lia. }
    assert (Hs : forall n args t', In (n, args) segs -> In t' args -> In T (visit_type t') <-> mentions T t').
    { intros n args t' H1 H2. apply IH. cbn [rty_size] in Hle.
      pose proof (list_sum_In (fun s : str * list rty => list_sum (map rty_size (snd s))) _ _ H1).
      pose proof (list_sum_In rty_size _ _ H2). cbn [snd] in *. lia. }
    rewrite in_app_iff. split.
    + intros [H|H].
      * destruct q as [t'|]; [|destruct H]. apply men_self. now apply (Hq t').
      * destruct (ends_in_phantom segs) eqn:Ep; [destruct H|]. pose proof (proj1 (ends_in_phantom_iff _) Ep) as Hp.
        apply in_app_iff in H as [H|H].
        -- destruct segs as [|[n a] [|]]; try now destruct H. destruct leading; [destruct H|].
           destruct H as [->|[]]. apply men_bare. intros ->. now apply (Hp [] a).
        -- apply in_flat_map in H as ([n args] & H1 & H2). apply in_flat_map in H2 as (t' & H2 & H3). cbn [snd] in H2.
           eapply men_arg; eauto. eapply Hs; eauto.
    + intros H. inversion H as [q' args Hn|t' leading' segs' Ht|q' leading' segs' n args t' Hp H1 H2 H3| |]; subst.
      * right. cbn [ends_in_phantom]. destruct (str_eq_dec T PHANTOM_DATA); [contradiction|]. cbn. auto.
      * left. now apply (Hq t').
      * right. apply ends_in_phantom_iff in Hp. rewrite Hp. apply in_app_iff. right.
        apply in_flat_map. exists (n, args). split; auto. apply in_flat_map. exists t'. split; auto. eapply Hs; eauto.
  - rewrite IH by (cbn in Hle; lia). split; [now constructor|]. now inversion 1.
  - rewrite in_flat_map. split.
    + intros (t & H1 & H2). eapply men_part; eauto. apply IH; auto. pose proof (list_sum_In rty_size _ _ H1). cbn [rty_size] in Hle. lia.
    + inversion 1 as [| | | |l' t H1 H2]; subst. exists t. split; auto. apply IH; auto.
      pose proof (list_sum_In rty_size _ _ H1). cbn [rty_size] in Hle. lia.
  - split; [intros []|inversion 1].
Qed.

Lemma projection_ungroup T t p : projection T t p <-> exists q leading args s rest,
  p = RPath q leading ((T, args) :: s :: rest) /\ ungroup t = p.
Proof.
  split.
  - induction 1 as [q leading args s rest|t p H (q & leading & args & s & rest & Hp & Hu)].
    + exists q, leading, args, s, rest. auto.
    + exists q, leading, args, s, rest. auto.
  - intros (q & leading & args & s & rest & Hp & Hu). induction t; cbn in Hu; subst; try discriminate.
    + injection Hu as -> -> ->. constructor.
    + constructor. auto.
Qed.

Lemma usage_cases params t :
  (exists T p, In T params /\ projection T t p /\ associated_usage params t = [p]) \/
  ((forall T p, In T params -> ~ projection T t p) /\ associated_usage params t = []).
Proof.
  unfold associated_usage. destruct (ungroup t) as [q leading [|[n args] [|s rest]]| | |] eqn:E.
  3: { destruct (existsb (str_eqb n) params) eqn:Ex.
    - apply existsb_exists in Ex as (T & HT & He). apply str_eqb_eq in He as <-. left. exists n. eexists. split; auto.
      split; auto. apply projection_ungroup. eauto 8.
    - right. split; auto. intros T p HT Hp. apply projection_ungroup in Hp as (q' & l' & a' & s' & r' & -> & Hu).
      rewrite E in Hu. injection Hu as -> -> -> -> -> ->.
      enough (existsb (str_eqb T) params = true) by congruence. apply existsb_exists. exists T. split; auto. now apply str_eqb_eq. }
  all: right; split; auto; intros T p HT Hp; apply projection_ungroup in Hp as (q' & l' & a' & s' & r' & -> & Hu);
    rewrite E in Hu; discriminate.
Qed.

Lemma declares_type_params g : declares (g_params g) (type_params g).
Proof.
  unfold type_params. induction (g_params g) as [|[s|n b d|s] l IH]; cbn; try constructor; auto.
Qed.
Lemma type_params_without_default g : type_params (without_default g) = type_params g.
Proof. unfold type_params, without_default. cbn. induction (g_params g) as [|[s|n b d|s] l IH]; cbn; congruence. Qed.
Lemma without_default_undefaulted g : Forall2 undefaulted (g_params g) (g_params (without_default g)).
Proof. cbn. induction (g_params g) as [|[s|n b d|s] l IH]; cbn; constructor; auto; constructor. Qed.

Lemma kept_filter {X} (P : X -> Prop) (f : X -> bool) l : (forall x, In x l -> (f x = true <-> P x)) -> kept P l (filter f l).
Proof.
  induction l as [|x l IH]; intros H; cbn; [constructor|].
  pose proof (H x (or_introl eq_refl)) as Hx. destruct (f x).
  - constructor; [now apply Hx|]. apply IH. intros; apply H; now right.
  - apply kept_no; [intros Hp; apply Hx in Hp; discriminate|]. apply IH. intros; apply H; now right.
Qed.

Section Facts.
  Variable pe pp : str -> bool.
  Variable uni : N -> bool.

  Lemma fields_kept r k (fs : list (field_syn rty)) gs : fields_parsed pe pp r k fs gs ->
    exists l, kept (fun f => ~ field_skipped pe pp f) fs l /\
      map fs_ty l = map f_ty (filter (fun f => negb (fa_skip (f_attrs f))) gs).
  Proof.
    induction 1 as [|k f g fs gs Hf Hr (l & Hl & Hm)]; [exists []; split; [constructor|reflexivity]|].
    pose proof (fp_skip _ _ _ _ _ _ Hf) as Hs. unfold AttrSpec.flag_takes in Hs. cbn [filter].
    destruct (fa_skip (f_attrs g)); cbn [negb].
    - exists l. split; auto. apply kept_no; auto. intros H. apply H. now apply Hs.
    - exists (f :: l). split.
      + constructor; auto. intros H. apply Hs in H. discriminate.
      + cbn. rewrite Hm. now rewrite (fp_ty _ _ _ _ _ _ Hf).
  Qed.

  Lemma filter_false {X} (l : list X) : filter (fun f => false) l = [].
  Proof. now induction l. Qed.

  Lemma variants_kept r (vs : list (variant_syn rty)) ws : Forall2 (variant_parsed pe pp uni r) vs ws ->
    exists vs' ls, kept (fun v => ~ variant_skipped pe pp v) vs vs' /\
      Forall2 (fun v l => kept (fun f => ~ field_skipped pe pp f) (fields_list (vs_fields v)) l) vs' ls /\
      map fs_ty (concat ls) = map f_ty (relevant_fields (Enum ws)).
  Proof.
    induction 1 as [|v w vs ws Hv Hr (vs' & ls & Hk & Hls & Hm)]; [exists [], []; repeat split; constructor|].
    pose proof (vp_skip _ _ _ _ _ _ Hv) as Hs. unfold AttrSpec.flag_takes in Hs. cbn [relevant_fields flat_map].
    destruct (va_skip (v_attrs w)) eqn:E.
    - exists vs', ls. split; [apply kept_no; auto; intros H; apply H; now apply Hs|]. split; auto.
      rewrite Hm. cbn [relevant_fields]. rewrite map_app.
      replace (filter _ (v_fields w)) with (@nil (field rty)); [reflexivity|].
      clear. induction (v_fields w) as [|g gs IH]; cbn; auto. rewrite andb_false_r. auto.
    - destruct (fields_kept _ _ _ _ (vp_fields _ _ _ _ _ _ Hv)) as (l & Hl & Hlm).
      exists (v :: vs'), (l :: ls). split; [constructor; auto; intros H; apply Hs in H; discriminate|]. split; [constructor; auto|].
      cbn [concat]. rewrite !map_app, Hlm, Hm. f_equal. f_equal. apply filter_ext. intros g. now rewrite andb_true_r.
  Qed.

  Lemma container_kept i c : container_parsed pe pp uni i c ->
    exists l, serialised_of pe pp i l /\ map fs_ty l = map f_ty (relevant_fields (c_data c)).
  Proof.
    intros Hc. pose proof (cp_data _ _ _ _ _ Hc) as Hd. destruct (di_data i) eqn:E; inversion Hd as [vs ws Hw|fs gs Hf]; subst.
    - destruct (variants_kept _ _ _ Hw) as (vs' & ls & H1 & H2 & H3). exists (concat ls). split; auto. eapply so_enum; eauto.
    - destruct (fields_kept _ _ _ _ Hf) as (l & H1 & H2). exists l. split; auto. eapply so_struct; eauto.
  Qed.

  Lemma flat_map_map {X Y Z} (f : Y -> list Z) (g : X -> Y) l : flat_map (fun x => f (g x)) l = flat_map f (map g l).
  Proof. induction l; cbn; congruence. Qed.

  Lemma usages_projections params (fs : list (field_syn rty)) :
    projections params fs (flat_map (associated_usage params) (map fs_ty fs)).
  Proof.
    induction fs as [|f fs IH]; cbn; [constructor|].
    destruct (usage_cases params (fs_ty f)) as [(T & p & H1 & H2 & ->)|[H ->]]; cbn; econstructor; eauto.
  Qed.

  Theorem impl_generics_spec i g g' : impl_generics pe pp uni i g = Some g' -> impl_generics_are pe pp i g g'.
  Proof.
    unfold impl_generics. destruct (container_from_ast pe pp uni i) as [r es] eqn:E. destruct r as [|c|]; try discriminate.
    destruct es; [|discriminate]. intros [= <-]. pose proof (from_ast_parsed _ _ _ _ _ E) as [Hc _].
    destruct (container_kept _ _ Hc) as (fs & Hfs & Hm).
    unfold build_generics, with_bound. rewrite type_params_without_default.
    eexists (type_params g), _, fs, _. split; [apply declares_type_params|]. split; auto.
    split; [apply without_default_undefaulted|]. split; [|split]; [| |cbn [g_where]; rewrite map_app, map_map; reflexivity].
    - apply kept_filter. intros T _. rewrite existsb_exists. rewrite flat_map_map, <- Hm. split.
      + intros (T' & HT & He). apply str_eqb_eq in He as <-. apply in_flat_map in HT as (t & Ht & Hv).
        apply in_map_iff in Ht as (f & <- & Hf). exists f. split; auto. now apply visit_iff.
      + intros (f & Hf & Hv). exists T. split; [|now apply str_eqb_eq]. apply in_flat_map. exists (fs_ty f).
        split; [now apply in_map|]. now apply visit_iff.
    - rewrite flat_map_map, <- Hm. apply usages_projections.
  Qed.
End Facts.

(** ** The parts that do not look at types *)
Section Natural.
  Context {A B : Type}.
  Variable h : A -> B.
  Variable pe pp : str -> bool.
  Variable uni : N -> bool.

  Definition pf (f : field A) : field B := Build_field (f_attrs f) (h (f_ty f)).
  Definition pv (v : variant A) : variant B :=
    Build_variant (v_ident v) (v_attrs v) (v_style v) (map pf (v_fields v)) (v_discriminant v).
  Definition pd (d : data A) : data B := match d with Enum l => Enum (map pv l) | Struct st l => Struct st (map pf l) end.
  Definition pc (c : container A) : container B := Build_container (c_ident c) (c_attrs c) (pd (c_data c)).

  Lemma fields_natural l : forall k, fields_from_ast pe pp k (map (field_map h) l) =
    (map pf (fst (fields_from_ast pe pp k l)), snd (fields_from_ast pe pp k l)).
  Proof.
    induction l as [|f l IH]; intros k; cbn; auto. rewrite IH.
    destruct (field_from_ast _ _ _ _) as [a es]. destruct (fields_from_ast pe pp (S k) l) as [r es']. reflexivity.
  Qed.
  Lemma struct_natural f : struct_from_ast pe pp (fields_map h f) =
    let '(st, fs, es) := struct_from_ast pe pp f in (st, map pf fs, es).
  Proof.
    destruct f as [l|l|]; cbn; auto; rewrite fields_natural; destruct (fields_from_ast pe pp 0 l); cbn; auto.
    now rewrite map_length.
  Qed.
  Lemma variants_natural vs : variants_from_ast pe pp (map (variant_map h) vs) =
    (map pv (fst (variants_from_ast pe pp vs)), snd (variants_from_ast pe pp vs)).
  Proof.
    induction vs as [|v vs IH]; cbn; auto. rewrite IH, struct_natural. destruct (variant_from_ast _ _ _ _) as [a es].
    destruct (struct_from_ast pe pp (vs_fields v)) as [[st fs] es1]. destruct (variants_from_ast pe pp vs) as [r es']. reflexivity.
  Qed.
  Lemma try_map_natural {X Y X' Y'} (f : X -> option Y) (f' : X' -> option Y') (m : X -> X') (n : Y -> Y') l :
    (forall x, f' (m x) = option_map n (f x)) -> try_map f' (map m l) = option_map (map n) (try_map f l).
  Proof.
    intros H. induction l as [|x l IH]; auto. cbn [map]. rewrite !try_map_cons, H, IH.
    destruct (f x); cbn; auto. destruct (try_map f l); auto.
  Qed.
  Lemma rename_field_natural r f : rename_field r (pf f) = option_map pf (rename_field r f).
  Proof. unfold rename_field. cbn. destruct (rename_as_field _ _); auto. Qed.
  Lemma rename_variant_natural r v : rename_variant uni r (pv v) = option_map pv (rename_variant uni r v).
  Proof.
    unfold rename_variant. cbn [pv v_attrs v_fields]. destruct (rename_as_variant _ _ _); auto.
    rewrite (try_map_natural (rename_field (va_rename_rule (v_attrs v))) _ pf pf) by apply rename_field_natural.
    destruct (try_map _ (v_fields v)); auto.
  Qed.
  Lemma rename_data_natural r d : rename_data uni r (pd d) = option_map pd (rename_data uni r d).
  Proof.
    destruct d; cbn [rename_data pd].
    - rewrite (try_map_natural (rename_variant uni r) _ pv pv) by apply rename_variant_natural. destruct (try_map _ l); auto.
    - rewrite (try_map_natural (rename_field r) _ pf pf) by apply rename_field_natural. destruct (try_map _ l); auto.
  Qed.
  Lemma forallb_map {X Y} (f : Y -> bool) (g : X -> Y) l : forallb f (map g l) = forallb (fun x => f (g x)) l.
  Proof. induction l; cbn; congruence. Qed.
  Lemma existsb_map {X Y} (f : Y -> bool) (g : X -> Y) l : existsb f (map g l) = existsb (fun x => f (g x)) l.
  Proof. induction l; cbn; congruence. Qed.
  Lemma any_flatten_natural d : any_flatten (pd d) = any_flatten d.
  Proof.
    destruct d as [l|st l]; cbn [any_flatten pd]; [|now rewrite existsb_map].
    induction l as [|v l IH]; auto. cbn [map existsb]. rewrite IH. cbn [pv v_fields]. now rewrite existsb_map.
  Qed.
  Lemma is_unit_natural f : is_unit (fields_map h f) = is_unit f.
  Proof. now destruct f. Qed.
  Lemma kind_natural d t : decide_model_kind (di_data (input_map h d)) t = decide_model_kind (di_data d) t.
  Proof.
    destruct d as [l n [vs|[| |]|]]; cbn; auto. rewrite forallb_map.
    replace (forallb _ vs) with (forallb (fun v : variant_syn A => is_unit (vs_fields v)) vs); auto.
    induction vs as [|v vs IH]; cbn; auto. now rewrite IH, is_unit_natural.
  Qed.
  Lemma attrs_natural i : container_attrs_from_ast pe pp (input_map h i) = container_attrs_from_ast pe pp i.
  Proof.
    unfold container_attrs_from_ast. replace (kind_of_data (di_data (input_map h i))) with (kind_of_data (di_data i)).
    - cbn [input_map di_attrs]. destruct (parse_attrs _ _ _ _) as [s es]. fold (input_map h i).
      rewrite <- kind_natural. reflexivity.
    - destruct i as [l n [vs|[| |]|]]; reflexivity.
  Qed.
  Lemma disc_natural vs : consistent_discriminants (map (variant_map h) vs) = consistent_discriminants vs.
  Proof. destruct vs as [|v vs]; cbn; auto. now rewrite forallb_map. Qed.

  Lemma from_ast_natural i : container_from_ast pe pp uni (input_map h i) =
    let (r, es) := container_from_ast pe pp uni i in
    (match r with FaSome c => FaSome (pc c) | FaNone => FaNone | FaPanic => FaPanic end, es).
  Proof.
    unfold container_from_ast. rewrite attrs_natural. destruct (container_attrs_from_ast pe pp i) as [a es].
    destruct i as [l n [vs|f|]]; cbn [input_map di_data di_ident].
    - rewrite disc_natural. destruct (consistent_discriminants vs); auto. rewrite variants_natural.
      destruct (variants_from_ast pe pp vs) as [ws es']. cbn [fst snd].
      change (Enum (map pv ws)) with (pd (Enum ws)). rewrite rename_data_natural, any_flatten_natural.
      destruct (rename_data uni _ (Enum ws)); reflexivity.
    - rewrite struct_natural. destruct (struct_from_ast pe pp f) as [[st fs] es'].
      change (Struct st (map pf fs)) with (pd (Struct st fs)). rewrite rename_data_natural, any_flatten_natural.
      destruct (rename_data uni _ (Struct st fs)); reflexivity.
    - reflexivity.
  Qed.
End Natural.

(** ** The description is complete *)
Lemma kept_fun {X} (P : X -> Prop) l l1 : kept P l l1 -> forall l2, kept P l l2 -> l1 = l2.
Proof. induction 1; inversion 1; subst; try contradiction; try reflexivity; f_equal; auto. Qed.
Lemma declares_fun l n1 : declares l n1 -> forall n2, declares l n2 -> n1 = n2.
Proof. induction 1; inversion 1; subst; auto; f_equal; auto. Qed.
Lemma undefaulted_fun l l1 : Forall2 undefaulted l l1 -> forall l2, Forall2 undefaulted l l2 -> l1 = l2.
Proof. induction 1 as [|x y l l1 Hxy H IH]; inversion 1 as [|? z ? ? Hxz]; subst; auto. f_equal; auto. inversion Hxy; subst; now inversion Hxz. Qed.
Lemma projection_fun T t p : projection T t p -> forall T' p', projection T' t p' -> p = p'.
Proof. induction 1; inversion 1; subst; eauto. Qed.
Lemma projections_fun params fs l1 : projections params fs l1 -> forall l2, projections params fs l2 -> l1 = l2.
Proof.
  induction 1 as [|f T p fs l HT Hp H IH|f fs l Hn H IH]; inversion 1 as [|f' T' p' fs' l' HT' Hp' H'|f' fs' l' Hn' H']; subst; auto.
  - f_equal; auto. eapply projection_fun; eauto.
  - destruct (Hn' T p HT Hp).
  - destruct (Hn T' p' HT' Hp').
Qed.
Lemma serialised_fun pe pp i l1 l2 : serialised_of pe pp i l1 -> serialised_of pe pp i l2 -> l1 = l2.
Proof.
  intros [fs l Hd Hk|vs vs' ls Hd Hk Hl] [fs2 l2' Hd2 Hk2|vs2 vs2' ls2 Hd2 Hk2 Hl2]; rewrite Hd in Hd2; try discriminate; injection Hd2 as ->.
  - eapply kept_fun; eauto.
  - rewrite (kept_fun _ _ _ Hk _ Hk2) in Hl. f_equal. clear - Hl Hl2. revert ls2 Hl2.
    induction Hl as [|v l vs ls H Hl IH]; inversion 1 as [|? l' ? ? H']; subst; auto. f_equal; auto. eapply kept_fun; eauto.
Qed.
Lemma impl_generics_fun pe pp i g g1 g2 : impl_generics_are pe pp i g g1 -> impl_generics_are pe pp i g g2 -> g1 = g2.
Proof.
  intros (ns & nd & fs & ps & H1 & H2 & H3 & H4 & H5 & H6) (ns' & nd' & fs' & ps' & H1' & H2' & H3' & H4' & H5' & H6').
  rewrite <- (declares_fun _ _ H1 _ H1') in *. rewrite <- (serialised_fun _ _ _ _ _ H2 H2') in *.
  rewrite <- (kept_fun _ _ _ H4 _ H4') in *. rewrite <- (projections_fun _ _ _ H5 _ H5') in *.
  destruct g1, g2; cbn in *. subst. f_equal. eapply undefaulted_fun; eauto.
Qed.

Lemma impl_generics_derived pe pp uni ev h i g td : derive pe pp uni ev (input_map h i) = DOk td ->
  exists g', impl_generics pe pp uni i g = Some g'.
Proof.
  unfold derive, impl_generics. rewrite from_ast_natural. destruct (container_from_ast pe pp uni i) as [r es].
  destruct r, es; try discriminate. eauto.
Qed.

Theorem where_clause pe pp uni ev h i g td : derive pe pp uni ev (input_map h i) = DOk td ->
  exists g', impl_generics pe pp uni i g = Some g' /\ forall g'', impl_generics_are pe pp i g g'' <-> g'' = g'.
Proof.
  intros Hd. destruct (impl_generics_derived _ _ _ _ _ _ g _ Hd) as (g' & Hg). exists g'. split; auto.
  intros g''. apply impl_generics_spec in Hg. split; [intros H; eapply impl_generics_fun; eauto|now intros ->].
Qed.

Lemma kept_In {X} (P : X -> Prop) l l' x : kept P l l' -> (In x l' <-> In x l /\ P x).
Proof.
  induction 1 as [|y l l' Hy H IH|y l l' Hy H IH]; cbn; [tauto| |].
  - rewrite IH. split; [intros [->|[]]; auto|tauto].
  - rewrite IH. split; [tauto|]. intros [[->|] ?]; tauto.
Qed.

(** the bound on one type parameter *)
Theorem param_bound pe pp uni ev h i g td T : derive pe pp uni ev (input_map h i) = DOk td ->
  ~ In (PBound (RPath None false [(T, [])]) (u "_opg::OpgModel")) (g_where g) ->
  exists g', impl_generics pe pp uni i g = Some g' /\
    (In (PBound (RPath None false [(T, [])]) (u "_opg::OpgModel")) (g_where g') <->
     (exists b d, In (GType T b d) (g_params g)) /\ exists fs f, serialised_of pe pp i fs /\ In f fs /\ mentions T (fs_ty f)).
Proof.
  intros Hd Hno. destruct (impl_generics_derived _ _ _ _ _ _ g _ Hd) as (g' & Hg). exists g'. split; auto.
  apply impl_generics_spec in Hg as (params & needed & fs & ps & H1 & H2 & _ & H4 & H5 & ->).
  assert (Hp : In T params <-> exists b d, In (GType T b d) (g_params g)).
  { clear - H1. induction H1 as [|n b d l ns H IH|s l ns H IH|s l ns H IH]; cbn.
    - split; [intros []|intros (b & d & [])].
    - rewrite IH. split.
      + intros [->|(b' & d' & ?)]; eauto.
      + intros (b' & d' & [[= -> -> ->]|?]); eauto.
    - rewrite IH. split; intros (b' & d' & H'); exists b', d'; [now right|]. now destruct H'.
    - rewrite IH. split; intros (b' & d' & H'); exists b', d'; [now right|]. now destruct H'. }
  rewrite !in_app_iff, !in_map_iff. split.
  - intros [H|[(T' & [= ->] & H)|(p & [= ->] & H)]]; [contradiction| |].
    + apply (kept_In _ _ _ _ H4) in H as (HT & f & Hf & Hm). split; [now apply Hp|]. eauto.
    + exfalso. clear - H5 H. induction H5 as [|f T' p fs l HT Hp H5 IH|]; auto. destruct H as [->|H]; auto.
      apply projection_ungroup in Hp as (? & ? & ? & ? & ? & ? & _). discriminate.
  - intros (HT & fs' & f & Hs & Hf & Hm). right. left. exists T. split; auto. apply (kept_In _ _ _ _ H4).
    split; [now apply Hp|]. exists f. rewrite (serialised_fun _ _ _ _ _ H2 Hs). auto.
Qed.
