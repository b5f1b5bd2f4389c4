(** Proofs about Schema.v. *)
From Verif Require Import Schema SchemaSpec.

(** ** apply_params *)

Lemma apply_params_facets p m :
  m_description (apply_params p m) = override (p_description p) (m_description m) /\
  kind_of (apply_params p m) = kind_of m /\
  object_of (apply_params p m) = object_of m /\
  items_of (apply_params p m) = items_of m /\
  alternatives_of (apply_params p m) = alternatives_of m /\
  nullable_of (apply_params p m) =
    match nullable_of m with Some _ => override (p_nullable p) (nullable_of m) | None => None end /\
  enum_of (apply_params p m) =
    (match kind_of m with KString => override (p_variants p) (enum_of m) | _ => None end) /\
  format_of (apply_params p m) =
    (match kind_of m with KString | KNumber | KInteger => override (p_format p) (format_of m) | _ => None end) /\
  example_of (apply_params p m) =
    (match kind_of m with KString | KNumber | KInteger => override (p_example p) (example_of m) | _ => None end).
Proof.
  destruct m as [d [ [n td] | l | l | l ] ]; [destruct td|..]; cbn; repeat split; try reflexivity;
    destruct (p_nullable p); reflexivity.
Qed.

Lemma facets_complete m1 m2 :
  m_description m1 = m_description m2 -> kind_of m1 = kind_of m2 -> object_of m1 = object_of m2 ->
  items_of m1 = items_of m2 -> alternatives_of m1 = alternatives_of m2 ->
  nullable_of m1 = nullable_of m2 -> enum_of m1 = enum_of m2 -> format_of m1 = format_of m2 ->
  example_of m1 = example_of m2 -> m1 = m2.
Proof.
  destruct m1 as [d1 [ [n1 td1] | l1 | l1 | l1 ] ]; destruct m2 as [d2 [ [n2 td2] | l2 | l2 | l2 ] ];
    try destruct td1 as [ [v1 [f1 e1] ]| [f1 e1] | [f1 e1] | | |];
    try destruct td2 as [ [v2 [f2 e2] ]| [f2 e2] | [f2 e2] | | |];
    unfold format_of, example_of; cbn; intros; try congruence.
Qed.

Definition combine_params (p q : params) : params :=
  Build_params (override (p_description q) (p_description p)) (override (p_nullable q) (p_nullable p))
    (override (p_variants q) (p_variants p)) (override (p_format q) (p_format p))
    (override (p_example q) (p_example p)).

Lemma override_override {A} (a b c : option A) : override a (override b c) = override (override a b) c.
Proof. destruct a; reflexivity. Qed.

Lemma apply_params_twice p q m :
  apply_params q (apply_params p m) = apply_params (combine_params p q) m.
Proof.
  destruct p as [p1 p2 p3 p4 p5], q as [q1 q2 q3 q4 q5].
  destruct m as [d [ [n td] | l | l | l ] ]; cbn; rewrite ?override_override; try reflexivity.
  destruct q2, p2, td as [ [v [f e] ]| [f e] | [f e] | | |]; cbn;
    unfold string_apply, simple_apply; cbn; rewrite ?override_override; reflexivity.
Qed.

Lemma apply_params_default m : apply_params params_default m = m.
Proof.
  destruct m as [d [ [n td] | l | l | l ] ]; cbn; try reflexivity.
  destruct td as [ [v [f e] ]| [f e] | [f e] | | |]; reflexivity.
Qed.

Lemma child_apply_params r p m : child r (apply_params p m) <-> child r m.
Proof.
  destruct m as [d [ [n td] | l | l | l ] ]; cbn; split; inversion 1; subst;
    try (destruct td; cbn in *; try discriminate);
    try (constructor; assumption); try congruence.
  all: try match goal with H : TdArray _ = TdArray _ |- _ => inversion H; subst end.
  all: try match goal with H : TdObject _ = TdObject _ |- _ => inversion H; subst end.
  all: try (constructor; assumption). all: try (econstructor; eassumption).
Qed.

Lemma occurs_in_apply_params l p m : occurs_in l (apply_params p m) <-> occurs_in l m.
Proof.
  unfold occurs_in; split; intros (r & H1 & H2); exists r; rewrite child_apply_params in *; auto.
Qed.

(** ** merge *)

Lemma str_cmp_neq (a b : str) : a <> b -> kcmp a b <> Eq.
Proof. intros H E. apply kcmp_eq in E. congruence. Qed.

Lemma bm_get_cons_eq {V} (k : str) (v : V) m : bm_get k ((k, v) :: m) = Some v.
Proof. cbn [bm_get]. now rewrite kcmp_refl. Qed.

Lemma bm_get_cons_neq {V} (k k' : str) (v : V) m : k <> k' -> bm_get k ((k', v) :: m) = bm_get k m.
Proof.
  intros H. cbn [bm_get]. destruct (kcmp k k') eqn:E; auto.
  apply kcmp_eq in E. congruence.
Qed.

Lemma merge_props_sorted p q : bm_sorted p -> bm_sorted (fst (merge_props p q)).
Proof.
  revert p; induction q as [|[k r] q IH]; intros p Hp; cbn [merge_props]; auto.
  destruct (bm_mem k p); [exact Hp|]. now apply IH, bm_insert_sorted.
Qed.

(** success: exactly when the keys are disjoint, and then the union *)
Lemma merge_props_true p q : bm_sorted q ->
  snd (merge_props p q) = true ->
  (forall k, In k (bm_keys q) -> ~ In k (bm_keys p)) /\
  (forall k, bm_get k (fst (merge_props p q)) =
             match bm_get k q with Some r => Some r | None => bm_get k p end).
Proof.
  intros Hq; revert p; induction Hq as [|k r q Hlt Hq IH]; intros p; cbn [merge_props].
  - cbn. intros _. split; [tauto|]. reflexivity.
  - destruct (bm_mem k p) eqn:Em; cbn [snd]; [discriminate|]. intros Hok.
    apply bm_mem_false in Em. destruct (IH _ Hok) as [Hd Hg]. split.
    + intros k' [<-|Hin]; auto. intros Hin'. apply (Hd _ Hin). apply bm_keys_insert. auto.
    + intros k'. rewrite Hg. destruct (str_eq_dec k' k) as [->|Hne].
      * rewrite bm_get_cons_eq, bm_get_insert_eq.
        replace (bm_get k q) with (@None model_ref); auto. symmetry. apply bm_get_None.
        intros Hin. apply Hlt in Hin. now apply kcmp_lt_irrefl in Hin.
      * now rewrite bm_get_cons_neq, bm_get_insert_neq by assumption.
Qed.

(** failure: the keys before the first clash have been added *)
Lemma merge_props_false p q : bm_sorted q ->
  snd (merge_props p q) = false ->
  exists c, In c (bm_keys q) /\ In c (bm_keys p) /\
    (forall k, kcmp k c = Lt -> In k (bm_keys q) -> ~ In k (bm_keys p)) /\
    (forall k, bm_get k (fst (merge_props p q)) =
               match bm_get k p, bm_get k q with
               | Some r, _ => Some r
               | None, Some r => match kcmp k c with Lt => Some r | _ => None end
               | None, None => None
               end).
Proof.
  intros Hq; revert p; induction Hq as [|k r q Hlt Hq IH]; intros p; cbn [merge_props].
  - discriminate.
  - destruct (bm_mem k p) eqn:Em; cbn [snd fst].
    + intros _. apply bm_mem_true in Em. exists k. split; [now left|]. split; auto. split.
      * intros k' Hk [<-|Hin]; [now apply kcmp_lt_irrefl in Hk|].
        apply Hlt in Hin. exfalso. match goal with H1 : kcmp ?a ?b = Lt, H2 : kcmp ?b ?a = Lt |- _ => exact (kcmp_lt_asym _ _ H1 H2) end.
      * intros k'. destruct (bm_get k' p) eqn:Eg; auto.
        destruct (bm_get k' ((k, r) :: q)) eqn:Eq'; auto.
        destruct (kcmp k' k) eqn:Ec; auto.
        assert (In k' (bm_keys ((k, r) :: q))) as Hin by (apply bm_get_Some_key; eauto).
        exfalso. destruct Hin as [<-|Hin].
        -- now apply kcmp_lt_irrefl in Ec.
        -- apply Hlt in Hin. match goal with H1 : kcmp ?a ?b = Lt, H2 : kcmp ?b ?a = Lt |- _ => exact (kcmp_lt_asym _ _ H1 H2) end.
    + intros Hf. apply bm_mem_false in Em. destruct (IH _ Hf) as (c & Hc1 & Hc2 & Hc3 & Hg).
      assert (kcmp k c = Lt) as Hkc by auto.
      exists c. split; [now right|]. split.
      { apply bm_keys_insert in Hc2 as [->|]; auto. now apply kcmp_lt_irrefl in Hkc. }
      split.
      * intros k' Hk' [<-|Hin]; auto. intros Hin'. apply (Hc3 k'); auto. apply bm_keys_insert. auto.
      * intros k'. rewrite Hg. destruct (str_eq_dec k' k) as [->|Hne].
        -- rewrite bm_get_cons_eq, bm_get_insert_eq, Hkc.
           apply bm_get_None in Em. now rewrite Em.
        -- now rewrite bm_get_cons_neq, bm_get_insert_neq by assumption.
Qed.

Lemma keys_disjoint (p q : bmap str model_ref) :
  (forall k, In k (bm_keys q) -> ~ In k (bm_keys p)) <->
  (forall k, bm_get k p = None \/ bm_get k q = None).
Proof.
  split; intros H k.
  - destruct (bm_get k q) eqn:E; auto. left. apply bm_get_None, H, bm_get_Some_key. eauto.
  - intros Hq. apply bm_get_None. destruct (H k) as [|Hn]; auto.
    apply bm_get_None in Hn. contradiction.
Qed.

Lemma merge_props_ok p q : bm_sorted q ->
  (snd (merge_props p q) = true <-> (forall k, bm_get k p = None \/ bm_get k q = None)).
Proof.
  intros Hq. rewrite <- keys_disjoint. split.
  - intros H. now apply merge_props_true.
  - intros H. destruct (snd (merge_props p q)) eqn:E; auto.
    destruct (merge_props_false _ _ Hq E) as (c & Hc1 & Hc2 & _). exfalso. eapply H; eauto.
Qed.

Lemma try_merge_ok_iff m1 m2 : wf_toplevel m2 ->
  (snd (try_merge m1 m2) = true <->
   exists o1 o2, object_of m1 = Some o1 /\ object_of m2 = Some o2 /\ disjoint_properties o1 o2).
Proof.
  unfold wf_toplevel, object_of, disjoint_properties, wf_object.
  destruct m1 as [d1 [ [n1 [s1|s1|s1| |r1| [p1 a1 q1] ] ] | l1 | l1 | l1 ] ]; cbn; intros Hwf;
    try (split; [discriminate | intros (o1 & o2 & H & _); discriminate]).
  destruct m2 as [d2 [ [n2 [s2|s2|s2| |r2| [p2 a2 q2] ] ] | l2 | l2 | l2 ] ]; cbn;
    try (split; [discriminate | intros (o1 & o2 & _ & H & _); discriminate]).
  cbn in Hwf. pose proof (merge_props_ok p1 p2 Hwf) as Hok.
  destruct (merge_props p1 p2) as [p' [|]]; cbn in *.
  - split; auto. intros _. eexists; eexists. split; [reflexivity|]. split; [reflexivity|].
    cbn. now apply Hok.
  - split; [discriminate|]. intros (o1 & o2 & [= <-] & [= <-] & H). cbn in H. now apply Hok in H.
Qed.

Lemma try_merge_ok_result m1 m2 o1 o2 : wf_toplevel m1 -> wf_toplevel m2 ->
  object_of m1 = Some o1 -> object_of m2 = Some o2 -> disjoint_properties o1 o2 ->
  exists o, object_of (fst (try_merge m1 m2)) = Some o /\
    (forall k, bm_get k (mo_properties o) =
       match bm_get k (mo_properties o1) with Some r => Some r | None => bm_get k (mo_properties o2) end) /\
    mo_required o = mo_required o1 ++ mo_required o2 /\
    mo_additional o = mo_additional o1 /\
    wf_object o /\
    m_description (fst (try_merge m1 m2)) = m_description m1 /\
    nullable_of (fst (try_merge m1 m2)) = nullable_of m1.
Proof.
  unfold wf_toplevel, object_of, disjoint_properties, wf_object, nullable_of.
  destruct m1 as [d1 [ [n1 [s1|s1|s1| |r1| [p1 a1 q1] ] ] | l1 | l1 | l1 ] ]; cbn; try discriminate.
  destruct m2 as [d2 [ [n2 [s2|s2|s2| |r2| [p2 a2 q2] ] ] | l2 | l2 | l2 ] ]; cbn; try discriminate.
  intros Hwf1 Hwf2 [= <-] [= <-] Hd. cbn in *.
  pose proof Hd as Hd'. apply merge_props_ok in Hd'; auto.
  pose proof (merge_props_true p1 p2 Hwf2 Hd') as [_ Hg].
  pose proof (merge_props_sorted p1 p2 Hwf1) as Hs.
  destruct (merge_props p1 p2) as [p' ok]; cbn in *. subst ok. cbn.
  eexists; split; [reflexivity|]. cbn. repeat split; auto.
  intros k. rewrite Hg. destruct (Hd k) as [E|E]; rewrite E.
  - destruct (bm_get k p2); reflexivity.
  - destruct (bm_get k p1); reflexivity.
Qed.

Lemma try_merge_fail_result m1 m2 : wf_toplevel m2 ->
  snd (try_merge m1 m2) = false ->
  (forall k r, property_of m1 k = Some r -> property_of (fst (try_merge m1 m2)) k = Some r) /\
  (forall o1 o2, object_of m1 = Some o1 -> object_of m2 = Some o2 ->
     exists c, property_of m1 c <> None /\ property_of m2 c <> None /\
       (forall k, kcmp k c = Lt -> property_of m1 k = None \/ property_of m2 k = None) /\
       (forall k, property_of (fst (try_merge m1 m2)) k =
          given (property_of m1 k)
                (match kcmp k c with Lt => property_of m2 k | _ => None end))) /\
  (forall o, object_of m1 = Some o -> exists o', object_of (fst (try_merge m1 m2)) = Some o' /\
     mo_required o' = mo_required o /\ mo_additional o' = mo_additional o) /\
  (object_of m1 = None \/ object_of m2 = None -> fst (try_merge m1 m2) = m1) /\
  m_description (fst (try_merge m1 m2)) = m_description m1 /\
  nullable_of (fst (try_merge m1 m2)) = nullable_of m1.
Proof.
  unfold wf_toplevel, property_of, object_of, wf_object, nullable_of.
  destruct m1 as [d1 [ [n1 [s1|s1|s1| |r1| [p1 a1 q1] ] ] | l1 | l1 | l1 ] ]; cbn; intros Hwf Hf;
    try (repeat split; auto; discriminate).
  destruct m2 as [d2 [ [n2 [s2|s2|s2| |r2| [p2 a2 q2] ] ] | l2 | l2 | l2 ] ]; cbn in *;
    try (repeat split; eauto; discriminate).
  pose proof (merge_props_false p1 p2 Hwf) as Hc.
  destruct (merge_props p1 p2) as [p' [|]]; cbn in *; [discriminate|].
  destruct (Hc eq_refl) as (c & Hc1 & Hc2 & Hc3 & Hg). repeat split.
  - intros k r Hk. now rewrite Hg, Hk.
  - intros o1 o2 _ _. exists c. split; [|split; [|split] ].
    + intros Hn; apply bm_get_None in Hn; contradiction.
    + intros Hn; apply bm_get_None in Hn; contradiction.
    + intros k Hk. destruct (bm_get k p2) eqn:E2; auto. left. apply bm_get_None.
      apply Hc3; auto. apply bm_get_Some_key. eauto.
    + intros k. rewrite Hg. unfold given. destruct (bm_get k p1); auto.
      destruct (bm_get k p2); auto. now destruct (kcmp k c).
  - intros o [= <-]. eexists; split; [reflexivity|]. split; reflexivity.
  - intros [H|H]; discriminate.
Qed.

(** ** add_property *)

Lemma add_property_spec o k r b : wf_object o ->
  (bm_get k (mo_properties o) <> None -> add_property o k r b = (o, false)) /\
  (bm_get k (mo_properties o) = None -> exists o',
     add_property o k r b = (o', true) /\ wf_object o' /\
     (forall k', bm_get k' (mo_properties o') =
        if str_eqb k' k then Some r else bm_get k' (mo_properties o)) /\
     mo_required o' = mo_required o ++ (if b then [k] else []) /\
     mo_additional o' = mo_additional o).
Proof.
  destruct o as [p a q]; unfold wf_object; cbn. intros Hwf. unfold bm_mem. split; intros H.
  - destruct (bm_get k p); [reflexivity|congruence].
  - rewrite H. eexists; split; [reflexivity|]. cbn. split; [now apply bm_insert_sorted|]. split.
    + intros k'. destruct (str_eqb_spec k' k) as [->|Hne].
      * apply bm_get_insert_eq.
      * now apply bm_get_insert_neq.
    + split; auto. destruct b; auto. now rewrite app_nil_r.
Qed.

(** ** verify_schemas *)

Lemma try_for_each_None {A} (f : A -> trav) l :
  try_for_each f l = None <-> (forall x, In x l -> f x = None).
Proof.
  induction l as [|x l IH]; cbn.
  - split; auto. intros _ ? [].
  - destruct (f x) eqn:E.
    + split; [discriminate|]. intros H. rewrite <- E. auto.
    + rewrite IH. split; [intros H y [<-|Hy]; auto | auto].
Qed.

Lemma try_for_each_Some {A} (f : A -> trav) l e :
  try_for_each f l = Some e ->
  exists l1 x l2, l = l1 ++ x :: l2 /\ f x = Some e /\ (forall y, In y l1 -> f y = None).
Proof.
  induction l as [|x l IH]; cbn; [discriminate|].
  destruct (f x) eqn:E.
  - intros [= <-]. exists [], x, l. cbn. repeat split; auto. intros ? [].
  - intros H. destruct (IH H) as (l1 & y & l2 & -> & Hy & Hn).
    exists (x :: l1), y, l2. cbn. repeat split; auto. intros z [<-|Hz]; auto.
Qed.

Lemma ref_traverse_Some cx r l : ref_traverse cx r = Some l <-> r = Link l /\ bm_get l cx = None.
Proof.
  destruct r; cbn; unfold bm_mem; try (split; [discriminate | intros [H _]; discriminate]).
  destruct (bm_get l0 cx) eqn:E.
  - split; [discriminate|]. intros [[= ->] H]. congruence.
  - split; [intros [= ->]; auto | intros [[= ->] _]; auto].
Qed.

Lemma model_traverse_None cx m :
  model_traverse cx m = None <-> (forall l, child (Link l) m -> bm_get l cx <> None).
Proof.
  assert (Hlist : forall refs, try_for_each (ref_traverse cx) refs = None <->
            (forall l, In (Link l) refs -> bm_get l cx <> None)).
  { intros refs. rewrite try_for_each_None. split.
    - intros H l Hin Hn. specialize (H _ Hin).
      assert (ref_traverse cx (Link l) = Some l) by (apply ref_traverse_Some; auto). congruence.
    - intros H r Hin. destruct (ref_traverse cx r) eqn:E; auto.
      apply ref_traverse_Some in E as [-> E]. exfalso. eapply H; eauto. }
  unfold model_traverse. destruct m as [d [ [n td] | refs | refs | refs ] ]; cbn [m_data data_traverse].
  - destruct td as [s|s|s| |r| [p a q] ]; cbn.
    1-4: split; auto; intros _ l H; inversion H.
    + specialize (Hlist [r]). cbn in Hlist.
      transitivity (match ref_traverse cx r with Some e => Some e | None => None end = None).
      { destruct (ref_traverse cx r); reflexivity. }
      rewrite Hlist. split; intros H l Hc.
      * inversion Hc; subst. apply H. now left.
      * destruct Hc as [->|[]]. apply H. constructor.
    + rewrite Hlist. split; intros H l Hc.
      * inversion Hc; subst; apply H; apply in_or_app.
        -- left. apply in_map_iff. exists (k, Link l). auto.
        -- right. now left.
      * apply in_app_or in Hc as [Hc|Hc].
        -- apply in_map_iff in Hc as ([k r] & E & Hin). cbn in E; subst. apply H. econstructor; eauto.
        -- destruct a; [|destruct Hc]. destruct Hc as [->|[]]. apply H. constructor.
  - rewrite Hlist. split; intros H l Hc; apply H; [now inversion Hc | now constructor].
  - rewrite Hlist. split; intros H l Hc; apply H; [now inversion Hc | now constructor].
  - rewrite Hlist. split; intros H l Hc; apply H; [now inversion Hc | now constructor].
Qed.

Lemma model_traverse_Some cx m l : model_traverse cx m = Some l -> child (Link l) m /\ bm_get l cx = None.
Proof.
  assert (Hlist : forall refs, try_for_each (ref_traverse cx) refs = Some l ->
            In (Link l) refs /\ bm_get l cx = None).
  { intros refs H. apply try_for_each_Some in H as (l1 & x & l2 & -> & Hx & _).
    apply ref_traverse_Some in Hx as [-> Hx]. split; auto. apply in_or_app. right. now left. }
  unfold model_traverse. destruct m as [d [ [n td] | refs | refs | refs ] ]; cbn [m_data data_traverse].
  - destruct td as [s|s|s| |r| [p a q] ]; cbn; try discriminate.
    + intros H. apply ref_traverse_Some in H as [-> H]. split; auto. constructor.
    + intros H. apply Hlist in H as [Hin Hn]. split; auto. apply in_app_or in Hin as [Hin|Hin].
      * apply in_map_iff in Hin as ([k r] & E & Hin). cbn in E; subst. econstructor; eauto.
      * destruct a; [|destruct Hin]. destruct Hin as [->|[]]. constructor.
  - intros H. apply Hlist in H as [Hin Hn]. split; auto. now constructor.
  - intros H. apply Hlist in H as [Hin Hn]. split; auto. now constructor.
  - intros H. apply Hlist in H as [Hin Hn]. split; auto. now constructor.
Qed.

(** [verify_schemas] is [Ok] exactly if no link standing directly in a registered schema dangles. *)
Lemma verify_schemas_ok schemas : bm_sorted schemas ->
  (verify_schemas schemas = None <->
   forall k m l, bm_get k schemas = Some m -> child (Link l) m -> bm_get l schemas <> None).
Proof.
  intros Hs. unfold verify_schemas. rewrite try_for_each_None. split.
  - intros H k m l Hk Hc. apply bm_get_In in Hk. specialize (H _ Hk). cbn in H.
    rewrite model_traverse_None in H. auto.
  - intros H [k m] Hin. cbn. apply model_traverse_None. intros l Hc.
    apply (H k m l); auto. apply bm_sorted_In_get; assumption.
Qed.

(** An error is a dangling link standing directly in the first (in key order) offending schema. *)
Lemma verify_schemas_err schemas l : bm_sorted schemas ->
  verify_schemas schemas = Some l ->
  bm_get l schemas = None /\
  exists k m, bm_get k schemas = Some m /\ child (Link l) m /\
    forall k' m' l', kcmp k' k = Lt -> bm_get k' schemas = Some m' -> child (Link l') m' ->
                     bm_get l' schemas <> None.
Proof.
  intros Hs H. unfold verify_schemas in H.
  apply try_for_each_Some in H as (l1 & [k m] & l2 & E & Hx & Hn). cbn in Hx.
  apply model_traverse_Some in Hx as [Hc Hl]. split; auto. exists k, m.
  assert (In (k, m) schemas) as Hin by (rewrite E; apply in_or_app; right; now left).
  split; [now apply bm_sorted_In_get|]. split; auto.
  intros k' m' l' Hlt Hk' Hc'. apply bm_get_In in Hk'. rewrite E in Hk'.
  apply in_app_or in Hk' as [Hk'|Hk'].
  - specialize (Hn _ Hk'). cbn in Hn. rewrite model_traverse_None in Hn. auto.
  - exfalso. clear - Hs E Hlt Hk'. subst schemas.
    assert (Hs2 : bm_sorted ((k, m) :: l2)).
    { induction l1 as [|[? ?] l1 IH]; cbn in *; auto. inversion Hs; auto. }
    inversion Hs2; subst. destruct Hk' as [[= E1 E2]|Hk'].
    + subst k'. exact (kcmp_lt_irrefl _ Hlt).
    + apply (in_map fst) in Hk'. cbn in Hk'. apply H1 in Hk'.
      match goal with H1 : kcmp ?a ?b = Lt, H2 : kcmp ?b ?a = Lt |- _ => exact (kcmp_lt_asym _ _ H1 H2) end.
Qed.

Lemma verify_closed schemas : bm_sorted schemas -> links_closed schemas -> verify_schemas schemas = None.
Proof.
  intros Hs Hc. apply verify_schemas_ok; auto. intros k m l Hk Hl.
  eapply Hc; eauto. exists (Link l). split; auto. constructor.
Qed.
