(** Programs that differ in their documentation generate schemas that differ in their documentation. *)
From Verif Require Import Attr Ast Derive Schema Gen GenSpec GenFacts DocsSpec DocsFacts DocsFacts2.

(** ** Maps *)

Section MapValues.
  Context {K V W : Type} `{Ord K}.
  Variable g : V -> W.
  Definition over (m : bmap K V) : bmap K W := map (fun e => (fst e, g (snd e))) m.
  Lemma over_get k m : bm_get k (over m) = option_map g (bm_get k m).
  Proof. induction m as [|[k' v] m IH]; [reflexivity|]. cbn. now destruct (kcmp k k'). Qed.
  Lemma over_mem k m : bm_mem k (over m) = bm_mem k m.
  Proof. unfold bm_mem. rewrite over_get. now destruct (bm_get k m). Qed.
  Lemma over_insert k v m : over (bm_insert k v m) = bm_insert k (g v) (over m).
  Proof. induction m as [|[k' v'] m IH]; [reflexivity|]. cbn. destruct (kcmp k k'); cbn; [reflexivity|reflexivity|now f_equal]. Qed.
  Lemma over_keys m : map fst (over m) = map fst m.
  Proof. unfold over. rewrite map_map. now apply map_ext. Qed.
End MapValues.

Section Docs.
  Variable K : docs.

  Lemma bare_object_eq p a r : bare_object K (MObject p a r) = MObject (over (bare_ref K) p) (option_map (bare_ref K) a) r.
  Proof. cbn [bare_object]. f_equal. unfold over. apply map_ext. now intros [k r']. Qed.

  Lemma bare_td_object p a r : bare_td K (TdObject (MObject p a r)) = TdObject (MObject (over (bare_ref K) p) (option_map (bare_ref K) a) r).
  Proof. rewrite <- bare_object_eq. reflexivity. Qed.
  Lemma bare_model_object d n p a r : bare_model K (Model d (Single (MType n (TdObject (MObject p a r))))) =
    Model (drop (of_descriptions K) d) (Single (MType n (TdObject (MObject (over (bare_ref K) p) (option_map (bare_ref K) a) r)))).
  Proof. rewrite <- bare_object_eq. reflexivity. Qed.

  (** ** The operations on schemas *)

  Lemma drop_override_eq {A} b (x y x' y' : option A) : drop b x = drop b x' -> drop b y = drop b y' ->
    drop b (override x y) = drop b (override x' y').
  Proof. destruct b; [reflexivity|]. cbn. now intros -> ->. Qed.

  Lemma apply_bare p p' m m' : bare_params K p = bare_params K p' -> bare_model K m = bare_model K m' ->
    bare_model K (apply_params p m) = bare_model K (apply_params p' m').
  Proof.
    unfold bare_params. intros [= E1 E2 E3 E4 E5]. destruct m as [d dt], m' as [d' dt']. cbn [bare_model apply_params]. intros [= F1 F2].
    f_equal; [now apply drop_override_eq|].
    destruct dt as [[n td]|l|l|l], dt' as [[n' td']|l'|l'|l']; cbn [bare_data bare_type data_apply type_apply] in *; try discriminate; try exact F2.
    injection F2 as -> F2. rewrite E2. do 2 f_equal.
    destruct td as [s|s|s| |r|o], td' as [s'|s'|s'| |r'|o']; cbn [bare_td td_apply] in *; try discriminate; try exact F2.
    - unfold bare_string, bare_simple in F2. injection F2 as G1 G2 G3. f_equal. unfold bare_string, bare_simple, string_apply, simple_apply. cbn.
      rewrite E3, G1. f_equal. f_equal; now apply drop_override_eq.
    - unfold bare_simple in F2. injection F2 as G2 G3. f_equal. unfold bare_simple, simple_apply. cbn. f_equal; now apply drop_override_eq.
    - unfold bare_simple in F2. injection F2 as G2 G3. f_equal. unfold bare_simple, simple_apply. cbn. f_equal; now apply drop_override_eq.
  Qed.

  Lemma merge_props_bare p o : let (p1, ok) := merge_props p o in merge_props (over (bare_ref K) p) (over (bare_ref K) o) = (over (bare_ref K) p1, ok).
  Proof.
    revert p. induction o as [|[k r] o IH]; intros p; [reflexivity|]. cbn [merge_props over map fst snd]. fold (over (bare_ref K) o).
    rewrite over_mem. destruct (bm_mem k p); [reflexivity|]. specialize (IH (bm_insert k r p)). now rewrite over_insert in IH.
  Qed.
  Lemma merge_bare m o : bare_model K (fst (try_merge m o)) = fst (try_merge (bare_model K m) (bare_model K o)).
  Proof.
    destruct m as [d [[n [s|s|s| |r|[p a r]]]|l|l|l]]; try reflexivity.
    destruct o as [d2 [[n2 [s2|s2|s2| |r2|[p2 a2 r2]]]|l2|l2|l2]]; try reflexivity.
    rewrite !bare_model_object. cbn [try_merge m_data object_merge mo_properties mo_required].
    pose proof (merge_props_bare p p2) as H. destruct (merge_props p p2) as [p1 ok]. rewrite H.
    destruct ok; cbn [fst]; now rewrite bare_model_object.
  Qed.

  (** ** Running *)

  Definition bare_cx (cx : components) : components :=
    {| cx_schemas := bare_schemas K (cx_schemas cx); cx_security := cx_security cx |}.
  (** both return the same apart from documentation, or neither returns *)
  Definition alike {A} (bare : A -> A) (x y : res (A * components)) : Prop :=
    match x, y with
    | Ok (a, cx), Ok (b, cx') => bare a = bare b /\ bare_cx cx = bare_cx cx'
    | Fuel, Fuel => True
    | _, _ => False
    end.
  Lemma alike_bind {A B} (bare : A -> A) (bare' : B -> B) x y (f g : A -> components -> res (B * components)) :
    alike bare x y -> (forall a b cx cx', bare a = bare b -> bare_cx cx = bare_cx cx' -> alike bare' (f a cx) (g b cx')) ->
    alike bare' (do (a, cx) <- x; f a cx) (do (b, cx) <- y; g b cx).
  Proof. destruct x as [[a cx]|], y as [[b cx']|]; cbn; try tauto. intros [H1 H2] H. now apply H. Qed.

  Lemma cx_mem k cx cx' : bare_cx cx = bare_cx cx' -> bm_mem k (cx_schemas cx) = bm_mem k (cx_schemas cx').
  Proof.
    unfold bare_cx. intros [= H _]. change (over (bare_model K) (cx_schemas cx) = over (bare_model K) (cx_schemas cx')) in H.
    rewrite <- (over_mem (bare_model K) k), H. apply over_mem.
  Qed.
  Lemma cx_insert k m m' cx cx' : bare_model K m = bare_model K m' -> bare_cx cx = bare_cx cx' ->
    bare_cx (cx_insert_schema k m cx) = bare_cx (cx_insert_schema k m' cx').
  Proof.
    intros Hm. unfold bare_cx, cx_insert_schema. cbn. intros [= H ->].
    change (over (bare_model K) (cx_schemas cx) = over (bare_model K) (cx_schemas cx')) in H.
    f_equal. change (over (bare_model K) (bm_insert k m (cx_schemas cx)) = over (bare_model K) (bm_insert k m' (cx_schemas cx'))).
    now rewrite !over_insert, Hm, H.
  Qed.

  Section Run.
    Variable E E' : env.
    Hypothesis same_code : forall id, bare_td_def K (E id) = bare_td_def K (E' id).

    Lemma ident_same id : td_ident (E id) = td_ident (E' id).
    Proof. pose proof (same_code id) as H. unfold bare_td_def in H. congruence. Qed.
    Lemma inline_same id : td_inline (E id) = td_inline (E' id).
    Proof. pose proof (same_code id) as H. unfold bare_td_def in H. congruence. Qed.
    Lemma name_same t : type_name E t = type_name E' t.
    Proof. induction t; cbn; auto. now rewrite ident_same, inline_same. Qed.
    Lemma overrides_same t : overrides_select E t = overrides_select E' t.
    Proof. destruct t; cbn; auto. apply inline_same. Qed.

    Section Open.
      Variable gs gs' : ty -> components -> res (model * components).
      Hypothesis gs_alike : forall t cx cx', bare_cx cx = bare_cx cx' -> alike (bare_model K) (gs t cx) (gs' t cx').

      Lemma with_params_alike t p p' cx cx' : bare_params K p = bare_params K p' -> bare_cx cx = bare_cx cx' ->
        alike (bare_model K) (get_schema_with_params gs t p cx) (get_schema_with_params gs' t p' cx').
      Proof.
        intros Hp Hc. unfold get_schema_with_params. eapply alike_bind; [apply gs_alike, Hc|]. intros m m' c c' Hm Hc'. split; [now apply apply_bare|exact Hc'].
      Qed.
      Lemma select_alike t i p p' cx cx' : bare_params K p = bare_params K p' -> bare_cx cx = bare_cx cx' ->
        alike (bare_ref K) (select_reference E gs t i p cx) (select_reference E' gs' t i p' cx').
      Proof.
        intros Hp Hc. unfold select_reference. rewrite <- overrides_same, <- name_same.
        assert (Hi : alike (bare_ref K) (do (m, c) <- gs t cx; Ok (Inline (apply_params p m), c)) (do (m, c) <- gs' t cx'; Ok (Inline (apply_params p' m), c))).
        { eapply alike_bind; [apply gs_alike, Hc|]. intros m m' c c' Hm Hc'. split; [cbn; f_equal; now apply apply_bare|exact Hc']. }
        destruct (overrides_select E t); [exact Hi|]. destruct (type_name E t); [|exact Hi]. destruct i; [exact Hi|]. now split.
      Qed.
      Lemma mention_alike t i p p' cx cx' : bare_params K p = bare_params K p' -> bare_cx cx = bare_cx cx' ->
        alike (bare_ref K) (mention_schema E gs t i p cx) (mention_schema E' gs' t i p' cx').
      Proof.
        intros Hp Hc. unfold mention_schema. eapply alike_bind; [now apply select_alike|]. intros r r' c c' Hr Hc'.
        destruct r as [l|m|], r' as [l'|m'|]; cbn in Hr; try discriminate; [|split; [exact Hr|exact Hc']|now split].
        injection Hr as <-. rewrite (cx_mem l _ _ Hc'). destruct (bm_mem l (cx_schemas c')); [now split|].
        eapply alike_bind; [apply gs_alike, Hc'|]. intros m m' c1 c1' Hm Hc1. split; [reflexivity|now apply cx_insert].
      Qed.
      Lemma vec_alike {A B} (bA : A -> A) (bB : B -> B) (f f' : A -> components -> res (B * components)) l l' cx cx' :
        Forall (fun a => forall a' c c', bA a = bA a' -> bare_cx c = bare_cx c' -> alike bB (f a c) (f' a' c')) l ->
        map bA l = map bA l' -> bare_cx cx = bare_cx cx' -> alike (map bB) (eval_vec f l cx) (eval_vec f' l' cx').
      Proof.
        intros Hf. revert l' cx cx'. induction Hf as [|a l Ha _ IH]; intros [|a' l'] cx cx'; cbn [map]; try discriminate.
        - intros _ Hc. now split.
        - intros [= H1 H2] Hc. cbn [eval_vec]. eapply alike_bind; [now apply Ha|]. intros b b' c c' Hb Hc1.
          eapply alike_bind; [exact (IH l' c c' H2 Hc1)|]. intros bs bs' c2 c2' Hbs Hc2. split; [cbn [map]; now rewrite Hb, Hbs|exact Hc2].
      Qed.
      Definition bare_stmt (e : str * rcode * bool) : str * rcode * bool := match e with (k, r, b) => (k, bare_rc K r, b) end.
      Definition bare_pr (x : bmap str model_ref * list str) := (over (bare_ref K) (fst x), snd x).
      Lemma stmts_alike (f f' : rcode -> components -> res (model_ref * components)) l l' :
        Forall (fun s => forall a' c c', bare_rc K (snd (fst s)) = bare_rc K a' -> bare_cx c = bare_cx c' -> alike (bare_ref K) (f (snd (fst s)) c) (f' a' c')) l ->
        map bare_stmt l = map bare_stmt l' -> forall props props' req cx cx', over (bare_ref K) props = over (bare_ref K) props' -> bare_cx cx = bare_cx cx' ->
        alike bare_pr (eval_stmts f l props req cx) (eval_stmts f' l' props' req cx').
      Proof.
        intros Hf. revert l'. induction Hf as [|[[k c] b] l Ha _ IH]; intros [|[[k' c'] b'] l']; cbn [map bare_stmt]; try discriminate.
        - intros _ props props' req cx cx' Hp Hc. split; [|exact Hc]. unfold bare_pr. cbn [fst snd]. now rewrite Hp.
        - intros [= <- H1 <- H2] props props' req cx cx' Hp Hc. cbn [eval_stmts]. eapply alike_bind; [exact (Ha _ _ _ H1 Hc)|].
          intros r r' c1 c1' Hr Hc1. apply IH; auto. now rewrite !over_insert, Hr, Hp.
      Qed.

      Lemma eval_alike :
        (forall c c' cx cx', bare_rc K c = bare_rc K c' -> bare_cx cx = bare_cx cx' -> alike (bare_ref K) (eval_r E gs c cx) (eval_r E' gs' c' cx')) /\
        (forall c c' cx cx', bare_mc K c = bare_mc K c' -> bare_cx cx = bare_cx cx' -> alike (bare_model K) (eval_m E gs c cx) (eval_m E' gs' c' cx')) /\
        (forall c c' cx cx', bare_dc K c = bare_dc K c' -> bare_cx cx = bare_cx cx' -> alike (bare_data K) (eval_d E gs c cx) (eval_d E' gs' c' cx')) /\
        (forall c c' cx cx', bare_tc K c = bare_tc K c' -> bare_cx cx = bare_cx cx' -> alike (bare_td K) (eval_t E gs c cx) (eval_t E' gs' c' cx')).
      Proof.
        apply code_ind.
        - intros [] cx cx'; cbn [bare_rc]; try discriminate. intros _ Hc. now split.
        - intros c IH [] cx cx'; cbn [bare_rc]; try discriminate. intros [= H] Hc. cbn [eval_r]. eapply alike_bind; [now apply IH|].
          intros m m' c1 c1' Hm Hc1. split; [exact (f_equal Inline Hm)|exact Hc1].
        - intros t i p [] cx cx'; cbn [bare_rc]; try discriminate. intros [= <- <- Hp] Hc. cbn [eval_r]. apply mention_alike; [|exact Hc].
          unfold bare_params. congruence.
        - intros c tag v i n IH [] cx cx'; cbn [bare_rc]; try discriminate. intros [= H <- <- <- <-] Hc. cbn [eval_r]. eapply alike_bind; [now apply IH|].
          intros m m' c1 c1' Hm Hc1. split; [|exact Hc1]. cbn [bare_ref]. now rewrite !merge_bare, Hm.
        - intros t p [] cx cx'; cbn [bare_mc]; try discriminate. intros [= <- Hp] Hc. cbn [eval_m]. apply with_params_alike; [|exact Hc].
          unfold bare_params. congruence.
        - intros d c IH [|d' c'] cx cx'; cbn [bare_mc]; try discriminate. intros [= Hd H] Hc. cbn [eval_m]. eapply alike_bind; [now apply IH|].
          intros m m' c1 c1' Hm Hc1. split; [exact (f_equal2 Model Hd Hm)|exact Hc1].
        - intros l IH [l'|] cx cx'; cbn [bare_dc]; try discriminate. intros [= H] Hc. cbn [eval_d]. eapply alike_bind; [now eapply vec_alike; [exact IH|..]|].
          intros m m' c1 c1' Hm Hc1. split; [exact (f_equal OneOf Hm)|exact Hc1].
        - intros n c IH [|n' c'] cx cx'; cbn [bare_dc]; try discriminate. intros [= <- H] Hc. cbn [eval_d]. eapply alike_bind; [now apply IH|].
          intros m m' c1 c1' Hm Hc1. split; [exact (f_equal (fun x => Single (MType n x)) Hm)|exact Hc1].
        - intros c [c'| | |] cx cx'; cbn [bare_tc]; try discriminate. intros [= H] Hc. cbn [eval_t]. split; [|exact Hc].
          destruct c, c'; cbn in *; congruence.
        - intros c IH [|c'| |] cx cx'; cbn [bare_tc]; try discriminate. intros [= H] Hc. cbn [eval_t]. eapply alike_bind; [now apply IH|].
          intros m m' c1 c1' Hm Hc1. split; [exact (f_equal TdArray Hm)|exact Hc1].
        - intros l IH [| |l'|] cx cx'; cbn [bare_tc]; try discriminate. intros [= H] Hc. cbn [eval_t].
          eapply alike_bind; [exact (stmts_alike _ _ l l' IH H [] [] [] cx cx' eq_refl Hc)|].
          intros [p q] [p' q'] c1 c1' Hm Hc1. unfold bare_pr in Hm. cbn [fst snd] in Hm. injection Hm as Hp <-.
          split; [|exact Hc1]. rewrite !bare_td_object. now rewrite Hp.
        - intros c IH [| | |c'] cx cx'; cbn [bare_tc]; try discriminate. intros [= H] Hc. cbn [eval_t]. eapply alike_bind; [now apply IH|].
          intros m m' c1 c1' Hm Hc1. split; [exact (f_equal (fun x => TdObject (MObject [] (Some x) [])) Hm)|exact Hc1].
      Qed.

      Lemma step_alike t cx cx' : bare_cx cx = bare_cx cx' -> alike (bare_model K) (schema_step E gs t cx) (schema_step E' gs' t cx').
      Proof.
        intros Hc. destruct t as [p|w t|t|ts|k t|k t|id]; cbn [schema_step].
        - now split.
        - now apply gs_alike.
        - now apply with_params_alike.
        - eapply alike_bind.
          + apply (vec_alike (fun t => t) (bare_ref K)); [|reflexivity|exact Hc].
            apply Forall_forall. intros a _ a' c c' <- Hc'. now apply mention_alike.
          + intros rs rs' c1 c1' Hm Hc1. split; [exact (f_equal (fun x => mk_single (drop (of_descriptions K) None) false (TdArray (Inline (Model (drop (of_descriptions K) None) (OneOf x))))) Hm)|exact Hc1].
        - eapply alike_bind; [now apply mention_alike|]. intros rs rs' c1 c1' Hm Hc1. split; [exact (f_equal (fun x => mk_single (drop (of_descriptions K) None) false (TdArray x)) Hm)|exact Hc1].
        - eapply alike_bind; [now apply mention_alike|]. intros rs rs' c1 c1' Hm Hc1. split; [exact (f_equal (fun x => mk_single (drop (of_descriptions K) None) false (TdObject (MObject [] (Some x) []))) Hm)|exact Hc1].
        - destruct eval_alike as (_ & H & _). apply H; [|exact Hc]. pose proof (same_code id) as Hs. unfold bare_td_def in Hs. congruence.
      Qed.
    End Open.

    Lemma get_schema_alike fuel t cx cx' : bare_cx cx = bare_cx cx' -> alike (bare_model K) (get_schema E fuel t cx) (get_schema E' fuel t cx').
    Proof. revert t cx cx'. induction fuel as [|f IH]; intros t cx cx' Hc; [exact I|]. apply step_alike; [exact IH|exact Hc]. Qed.

    Lemma mention_returns_alike t i p p' cx cx' r cx1 : bare_params K p = bare_params K p' -> bare_cx cx = bare_cx cx' ->
      mention_returns E t i p cx r cx1 ->
      exists r' cx1', mention_returns E' t i p' cx' r' cx1' /\ bare_ref K r = bare_ref K r' /\ bare_cx cx1 = bare_cx cx1'.
    Proof.
      intros Hp Hc [fuel H]. pose proof (mention_alike _ _ (get_schema_alike fuel) t i p p' cx cx' Hp Hc) as Ha. unfold mention in H. rewrite H in Ha.
      destruct (mention_schema E' _ t i p' cx') as [[r' cx1']|] eqn:Er; cbn in Ha; [|contradiction].
      exists r', cx1'. split; [now exists fuel|exact Ha].
    Qed.
    Lemma answers_alike l l' cx cx' rs cx1 : Forall2 (redocumented_call K) l l' -> bare_cx cx = bare_cx cx' -> answers E l cx rs cx1 ->
      exists rs' cx1', answers E' l' cx' rs' cx1' /\ map (bare_ref K) rs = map (bare_ref K) rs' /\ bare_cx cx1 = bare_cx cx1'.
    Proof.
      intros Hl Hc H. revert l' cx' Hl Hc. induction H as [cx|c l cx r cx1 rs cx2 Hr _ IH]; intros l' cx' Hl Hc.
      - inversion Hl; subst. exists [], cx'. split; [constructor|now split].
      - inversion Hl as [|? c' ? l2 (Ht & Hi & Hp) Hl2]; subst. destruct (mention_returns_alike _ _ _ _ _ _ _ _ Hp Hc Hr) as (r' & cx1' & Hr' & Hb & Hc1).
        destruct (IH _ _ Hl2 Hc1) as (rs' & cx2' & Ha & Hbs & Hc2). exists (r' :: rs'), cx2'. split; [|split; [cbn [map]; now rewrite Hb, Hbs|exact Hc2]].
        econstructor; [|exact Ha]. now rewrite <- Ht, <- Hi.
    Qed.
  End Run.

  Lemma programs_alike pe pp uni ev ev' D D' E E' l l' rs cx : (of_examples K = false -> forall s, ev s = ev' s) ->
    program pe pp uni ev D E -> program pe pp uni ev' D' E' -> (forall id, redocumented K (D id) (D' id)) -> Forall2 (redocumented_call K) l l' ->
    answers E l cx_new rs cx ->
    exists rs' cx', answers E' l' cx_new rs' cx' /\
      map (bare_ref K) rs = map (bare_ref K) rs' /\ bare_schemas K (cx_schemas cx) = bare_schemas K (cx_schemas cx').
  Proof.
    intros He HE HE' HD Hl H. destruct (answers_alike E E') with (l := l) (l' := l') (cx := cx_new) (cx' := cx_new) (rs := rs) (cx1 := cx)
      as (rs' & cx' & H1 & H2 & H3); auto.
    - intros id. exact (derive_redocumented K _ _ _ _ _ _ _ _ _ He (HD id) (HE id) (HE' id)).
    - exists rs', cx'. split; [exact H1|]. split; [exact H2|]. unfold bare_cx in H3. congruence.
  Qed.
End Docs.
