(** Proofs about Gen.v: schema generation. *)
From Verif Require Import Schema SchemaSpec SchemaFacts Gen GenSpec.

(** ** Induction over generated code *)

Section CodeInd.
  Variables (Pr : rcode -> Prop) (Pm : mcode -> Prop) (Pd : dcode -> Prop) (Pt : tcode -> Prop).
  Hypothesis H_any : Pr RcAny.
  Hypothesis H_inline : forall c, Pm c -> Pr (RcInline c).
  Hypothesis H_mention : forall t i p, Pr (RcMention t i p).
  Hypothesis H_tagged : forall c tag v i n, Pm c -> Pr (RcTagged c tag v i n).
  Hypothesis H_with : forall t p, Pm (McSchemaWith t p).
  Hypothesis H_model : forall d c, Pd c -> Pm (McModel d c).
  Hypothesis H_oneof : forall l, Forall Pr l -> Pd (DcOneOf l).
  Hypothesis H_single : forall n c, Pt c -> Pd (DcSingle n c).
  Hypothesis H_const : forall c, Pt (TcConst c).
  Hypothesis H_array : forall c, Pr c -> Pt (TcArray c).
  Hypothesis H_object : forall l, Forall (fun s => Pr (snd (fst s))) l -> Pt (TcObject l).
  Hypothesis H_dict : forall c, Pr c -> Pt (TcDict c).

  Fixpoint rcode_ind' (c : rcode) : Pr c :=
    match c with
    | RcAny => H_any
    | RcInline c' => H_inline c' (mcode_ind' c')
    | RcMention t i p => H_mention t i p
    | RcTagged c' tag v i n => H_tagged c' tag v i n (mcode_ind' c')
    end
  with mcode_ind' (c : mcode) : Pm c :=
    match c with
    | McSchemaWith t p => H_with t p
    | McModel d c' => H_model d c' (dcode_ind' c')
    end
  with dcode_ind' (c : dcode) : Pd c :=
    match c with
    | DcOneOf l =>
        H_oneof l ((fix go l : Forall Pr l :=
          match l with [] => Forall_nil _ | c' :: l' => Forall_cons _ (rcode_ind' c') (go l') end) l)
    | DcSingle n c' => H_single n c' (tcode_ind' c')
    end
  with tcode_ind' (c : tcode) : Pt c :=
    match c with
    | TcConst c' => H_const c'
    | TcArray c' => H_array c' (rcode_ind' c')
    | TcObject l =>
        H_object l ((fix go l : Forall (fun s : str * rcode * bool => Pr (snd (fst s))) l :=
          match l with
          | [] => Forall_nil _
          | s :: l' => Forall_cons s (rcode_ind' (snd (fst s))) (go l')
          end) l)
    | TcDict c' => H_dict c' (rcode_ind' c')
    end.

  Lemma code_ind : (forall c, Pr c) /\ (forall c, Pm c) /\ (forall c, Pd c) /\ (forall c, Pt c).
  Proof. repeat split; [apply rcode_ind' | apply mcode_ind' | apply dcode_ind' | apply tcode_ind']. Qed.
End CodeInd.

Lemma bind_Ok {A B} (x : res A) (f : A -> res B) b : bind x f = Ok b <-> exists a, x = Ok a /\ f a = Ok b.
Proof.
  destruct x; cbn; split.
  - eauto.
  - intros (a' & [= ->] & H). exact H.
  - discriminate.
  - intros (a' & H & _). discriminate.
Qed.

(** break all binds in hypotheses *)
Ltac binds :=
  repeat match goal with
  | H : bind _ _ = Ok _ |- _ => apply bind_Ok in H as ([? ?] & ? & ?)
  | H : Ok _ = Ok _ |- _ => injection H as; subst
  | H : (_, _) = (_, _) |- _ => injection H as; subst
  end.

Section Exec.
  Variable E : env.

  Lemma overrides_no_name t : overrides_select E t = true -> type_name E t = None.
  Proof. destruct t; cbn; try discriminate; auto. now intros ->. Qed.

  (** the component name under which a mention is made by link *)
  Definition link_name (t : ty) (inline : bool) : option str :=
    if inline then None else type_name E t.

  Lemma mention_schema_eq gs t i p cx :
    mention_schema E gs t i p cx =
    match link_name t i with
    | Some n =>
        if bm_mem n (cx_schemas cx) then Ok (Link n, cx)
        else do (m, cx') <- gs t cx; Ok (Link n, cx_insert_schema n m cx')
    | None => do (m, cx') <- gs t cx; Ok (Inline (apply_params p m), cx')
    end.
  Proof.
    unfold mention_schema, select_reference, link_name.
    destruct (overrides_select E t) eqn:Eo.
    - rewrite (overrides_no_name _ Eo).
      transitivity (do (m, cx') <- gs t cx; Ok (Inline (apply_params p m), cx')).
      { destruct (gs t cx) as [[m cx']|]; reflexivity. }
      destruct i; reflexivity.
    - destruct (type_name E t) as [n|]; destruct i; cbn;
        try (destruct (gs t cx) as [[m cx']|]; reflexivity).
  Qed.

  (** unfolding equations *)
  Section Eqs.
    Variable gs : ty -> components -> res (model * components).
    Lemma er_any cx : eval_r E gs RcAny cx = Ok (Any, cx). Proof. reflexivity. Qed.
    Lemma er_inline c cx : eval_r E gs (RcInline c) cx = do (m, cx') <- eval_m E gs c cx; Ok (Inline m, cx').
    Proof. reflexivity. Qed.
    Lemma er_mention t i p cx : eval_r E gs (RcMention t i p) cx = mention_schema E gs t i p cx.
    Proof. reflexivity. Qed.
    Lemma er_tagged c tag v id n cx : eval_r E gs (RcTagged c tag v id n) cx =
      do (m, cx') <- eval_m E gs c cx; Ok (Inline (fst (try_merge m (tag_model tag v id n))), cx').
    Proof. reflexivity. Qed.
    Lemma em_with t p cx : eval_m E gs (McSchemaWith t p) cx =
      do (m, cx') <- gs t cx; Ok (apply_params p m, cx').
    Proof. reflexivity. Qed.
    Lemma em_model d c cx : eval_m E gs (McModel d c) cx = do (data, cx') <- eval_d E gs c cx; Ok (Model d data, cx').
    Proof. reflexivity. Qed.
    Lemma ed_oneof l cx : eval_d E gs (DcOneOf l) cx = do (rs, cx') <- eval_vec (eval_r E gs) l cx; Ok (OneOf rs, cx').
    Proof. reflexivity. Qed.
    Lemma ed_single n c cx : eval_d E gs (DcSingle n c) cx = do (td, cx') <- eval_t E gs c cx; Ok (Single (MType n td), cx').
    Proof. reflexivity. Qed.
    Lemma et_const c cx : eval_t E gs (TcConst c) cx = Ok (const_td c, cx). Proof. reflexivity. Qed.
    Lemma et_array c cx : eval_t E gs (TcArray c) cx = do (r, cx') <- eval_r E gs c cx; Ok (TdArray r, cx').
    Proof. reflexivity. Qed.
    Lemma et_object l cx : eval_t E gs (TcObject l) cx =
      do (pr, cx') <- eval_stmts (eval_r E gs) l [] [] cx;
      let (props, req) := pr in Ok (TdObject (MObject props None req), cx').
    Proof. reflexivity. Qed.
    Lemma et_dict c cx : eval_t E gs (TcDict c) cx =
      do (r, cx') <- eval_r E gs c cx; Ok (TdObject (MObject [] (Some r) []), cx').
    Proof. reflexivity. Qed.
  End Eqs.
  Hint Rewrite er_any er_inline er_mention er_tagged em_with em_model ed_oneof ed_single et_const et_array
    et_object et_dict : eval.

  (** ** The effect of generated code on the components is that of its sites, in order *)

  Definition exec_site gs (s : site) (cx : components) : res components :=
    match s with
    | SMention t i => do (_, cx') <- mention_schema E gs t i params_default cx; Ok cx'
    | SCall t => do (_, cx') <- gs t cx; Ok cx'
    end.

  Fixpoint exec_sites gs (l : list site) (cx : components) : res components :=
    match l with
    | [] => Ok cx
    | s :: l' => match exec_site gs s cx with Ok cx1 => exec_sites gs l' cx1 | Fuel => Fuel end
    end.

  Lemma exec_sites_app gs l1 l2 cx :
    exec_sites gs (l1 ++ l2) cx =
    match exec_sites gs l1 cx with Ok cx1 => exec_sites gs l2 cx1 | Fuel => Fuel end.
  Proof.
    revert cx; induction l1 as [|s l1 IH]; intros cx; cbn; auto.
    destruct (exec_site gs s cx); auto.
  Qed.

  Definition state {A} (x : res (A * components)) : res components :=
    match x with Ok (_, cx) => Ok cx | Fuel => Fuel end.

  Lemma mention_state gs t i p cx :
    state (mention_schema E gs t i p cx) = exec_site gs (SMention t i) cx.
  Proof.
    cbn. rewrite !mention_schema_eq. destruct (link_name t i) as [n|].
    - destruct (bm_mem n (cx_schemas cx)); auto; destruct (gs t cx) as [[m cx']|]; auto.
    - destruct (gs t cx) as [[m cx']|]; auto.
  Qed.

  Lemma eval_state gs :
    (forall c cx, state (eval_r E gs c cx) = exec_sites gs (sites_r c) cx) /\
    (forall c cx, state (eval_m E gs c cx) = exec_sites gs (sites_m c) cx) /\
    (forall c cx, state (eval_d E gs c cx) = exec_sites gs (sites_d c) cx) /\
    (forall c cx, state (eval_t E gs c cx) = exec_sites gs (sites_t c) cx).
  Proof.
    apply code_ind; try reflexivity.
    - intros c IH cx. autorewrite with eval. cbn [sites_r sites_t]. rewrite <- IH. destruct (eval_m E gs c cx) as [[m cx']|]; reflexivity.
    - intros t i p cx. rewrite er_mention. cbn [sites_r exec_sites]. rewrite mention_state.
      destruct (exec_site gs (SMention t i) cx); reflexivity.
    - intros c tag v id n IH cx. autorewrite with eval. cbn [sites_r]. rewrite <- IH. destruct (eval_m E gs c cx) as [[m cx']|]; reflexivity.
    - intros t p cx. autorewrite with eval. cbn. destruct (gs t cx) as [[m cx']|]; reflexivity.
    - intros d c IH cx. autorewrite with eval. cbn [sites_m]. rewrite <- IH. destruct (eval_d E gs c cx) as [[m cx']|]; reflexivity.
    - intros l Hl cx. autorewrite with eval. cbn [sites_d].
      assert (H : state (eval_vec (eval_r E gs) l cx) = exec_sites gs (flat_map sites_r l) cx).
      { revert cx; induction Hl as [|c l Hc Hl IH]; intros cx; cbn [eval_vec flat_map]; auto.
        rewrite exec_sites_app, <- Hc. destruct (eval_r E gs c cx) as [[r cx1]|]; cbn; auto.
        rewrite <- IH. destruct (eval_vec (eval_r E gs) l cx1) as [[rs cx2]|]; reflexivity. }
      rewrite <- H. destruct (eval_vec (eval_r E gs) l cx) as [[rs cx2]|]; reflexivity.
    - intros n c IH cx. autorewrite with eval. cbn [sites_d]. rewrite <- IH. destruct (eval_t E gs c cx) as [[m cx']|]; reflexivity.
    - intros c IH cx. autorewrite with eval. cbn [sites_r sites_t]. rewrite <- IH. destruct (eval_r E gs c cx) as [[m cx']|]; reflexivity.
    - intros l Hl cx. autorewrite with eval. cbn [sites_t].
      assert (H : forall pr rq, state (eval_stmts (eval_r E gs) l pr rq cx)
                    = exec_sites gs (flat_map (fun s => sites_r (snd (fst s))) l) cx).
      { revert cx; induction Hl as [|[[k c] b] l Hc Hl IH]; intros cx pr rq; cbn [eval_stmts flat_map]; auto.
        rewrite exec_sites_app. cbn in Hc |- *. rewrite <- Hc.
        destruct (eval_r E gs c cx) as [[r cx1]|]; cbn; auto. }
      rewrite <- (H [] []). destruct (eval_stmts (eval_r E gs) l [] [] cx) as [[[pr rq] cx2]|]; reflexivity.
    - intros c IH cx. autorewrite with eval. cbn [sites_r sites_t]. rewrite <- IH. destruct (eval_r E gs c cx) as [[m cx']|]; reflexivity.
  Qed.

  Lemma schema_step_state gs t cx :
    state (schema_step E gs t cx) = exec_sites gs (sites_of E t) cx.
  Proof.
    destruct t; cbn [schema_step sites_of exec_sites exec_site].
    - reflexivity.
    - destruct (gs t cx) as [[m cx']|]; reflexivity.
    - unfold get_schema_with_params. destruct (gs t cx) as [[m cx']|]; reflexivity.
    - assert (H : state (eval_vec (fun t' => mention_schema E gs t' false params_default) ts cx)
               = exec_sites gs (map (fun t' => SMention t' false) ts) cx).
      { revert cx; induction ts as [|t ts IH]; intros cx; cbn; auto.
        destruct (mention_schema E gs t false params_default cx) as [[r cx1]|]; cbn; auto.
        rewrite <- IH.
        destruct (eval_vec (fun t' => mention_schema E gs t' false params_default) ts cx1) as [[rs cx2]|];
          reflexivity. }
      rewrite <- H.
      destruct (eval_vec (fun t' => mention_schema E gs t' false params_default) ts cx) as [[rs cx2]|]; reflexivity.
    - destruct (mention_schema E gs t false params_default cx) as [[r cx1]|]; reflexivity.
    - destruct (mention_schema E gs t false params_default cx) as [[r cx1]|]; reflexivity.
    - apply eval_state.
  Qed.

  Lemma state_Ok {A} (x : res (A * components)) cx : state x = Ok cx <-> exists a, x = Ok (a, cx).
  Proof.
    destruct x as [[a cx']|]; cbn; split.
    - intros [= ->]; eauto.
    - intros (a' & [= -> ->]); auto.
    - discriminate.
    - intros (a' & H); discriminate.
  Qed.

  Lemma get_schema_sites f t cx m cx' :
    get_schema E (S f) t cx = Ok (m, cx') -> exec_sites (get_schema E f) (sites_of E t) cx = Ok cx'.
  Proof. cbn [get_schema]. intros H. rewrite <- schema_step_state, H. reflexivity. Qed.

  Lemma sites_get_schema f t cx cx' :
    exec_sites (get_schema E f) (sites_of E t) cx = Ok cx' -> exists m, get_schema E (S f) t cx = Ok (m, cx').
  Proof. cbn [get_schema]. rewrite <- schema_step_state. apply state_Ok. Qed.

  (** ** More fuel gives the same result *)

  Definition below (gs1 gs2 : ty -> components -> res (model * components)) : Prop :=
    forall t cx r, gs1 t cx = Ok r -> gs2 t cx = Ok r.

  Lemma mention_below gs1 gs2 t i p cx r : below gs1 gs2 ->
    mention_schema E gs1 t i p cx = Ok r -> mention_schema E gs2 t i p cx = Ok r.
  Proof.
    intros Hb. rewrite !mention_schema_eq. destruct (link_name t i) as [n|].
    - destruct (bm_mem n (cx_schemas cx)); auto. intros H. binds. now rewrite (Hb _ _ _ H).
    - intros H. binds. now rewrite (Hb _ _ _ H).
  Qed.

  Lemma eval_vec_below {A B} (f1 f2 : A -> components -> res (B * components)) l :
    Forall (fun a => forall cx r, f1 a cx = Ok r -> f2 a cx = Ok r) l ->
    forall cx r, eval_vec f1 l cx = Ok r -> eval_vec f2 l cx = Ok r.
  Proof.
    induction 1 as [|a l Ha Hl IH]; intros cx r; cbn; auto.
    intros H. binds. rewrite (Ha _ _ H). cbn. now rewrite (IH _ _ H0).
  Qed.

  Lemma eval_below gs1 gs2 : below gs1 gs2 ->
    (forall c cx r, eval_r E gs1 c cx = Ok r -> eval_r E gs2 c cx = Ok r) /\
    (forall c cx r, eval_m E gs1 c cx = Ok r -> eval_m E gs2 c cx = Ok r) /\
    (forall c cx r, eval_d E gs1 c cx = Ok r -> eval_d E gs2 c cx = Ok r) /\
    (forall c cx r, eval_t E gs1 c cx = Ok r -> eval_t E gs2 c cx = Ok r).
  Proof.
    intros Hb. apply code_ind.
    - auto.
    - intros c IH cx r H. autorewrite with eval in *. binds. now rewrite (IH _ _ H).
    - intros t i p cx r. autorewrite with eval. now apply mention_below.
    - intros c tag v id n IH cx r H. autorewrite with eval in *. binds. now rewrite (IH _ _ H).
    - intros t p cx r H. autorewrite with eval in *. binds. now rewrite (Hb _ _ _ H).
    - intros d c IH cx r H. autorewrite with eval in *. binds. now rewrite (IH _ _ H).
    - intros l Hl cx r H. autorewrite with eval in *. binds.
      apply eval_vec_below with (f2 := eval_r E gs2) in H; auto. now rewrite H.
    - intros n c IH cx r H. autorewrite with eval in *. binds. now rewrite (IH _ _ H).
    - auto.
    - intros c IH cx r H. autorewrite with eval in *. binds. now rewrite (IH _ _ H).
    - intros l Hl cx r H. autorewrite with eval in *.
      assert (Hs : forall pr rq cx r, eval_stmts (eval_r E gs1) l pr rq cx = Ok r ->
                                      eval_stmts (eval_r E gs2) l pr rq cx = Ok r).
      { clear - Hl. induction Hl as [|[[k c] b] l Hc Hl IH]; intros pr rq cx r; cbn [eval_stmts]; auto.
        intros H. binds. cbn in Hc. rewrite (Hc _ _ H). cbn [bind]. auto. }
      apply bind_Ok in H as (x & H & Hx). rewrite (Hs _ _ _ _ H). exact Hx.
    - intros c IH cx r H. autorewrite with eval in *. binds. now rewrite (IH _ _ H).
  Qed.

  Lemma schema_step_below gs1 gs2 : below gs1 gs2 -> below (schema_step E gs1) (schema_step E gs2).
  Proof.
    intros Hb t cx r. destruct t; cbn [schema_step]; auto.
    - unfold get_schema_with_params. intros H. binds. now rewrite (Hb _ _ _ H).
    - intros H. binds.
      apply eval_vec_below with (f2 := fun t' => mention_schema E gs2 t' false params_default) in H.
      + now rewrite H.
      + apply Forall_forall. intros t _ cx' r. now apply mention_below.
    - intros H. binds. now rewrite (mention_below _ _ _ _ _ _ _ Hb H).
    - intros H. binds. now rewrite (mention_below _ _ _ _ _ _ _ Hb H).
    - apply (proj1 (proj2 (eval_below _ _ Hb))).
  Qed.

  Lemma get_schema_S f : below (get_schema E f) (get_schema E (S f)).
  Proof.
    induction f as [|f IH].
    - intros t cx r H. discriminate.
    - cbn [get_schema]. now apply schema_step_below.
  Qed.

  Lemma get_schema_le f f' : f <= f' -> below (get_schema E f) (get_schema E f').
  Proof.
    induction 1 as [|f' Hle IH]; intros t cx r H; auto. now apply get_schema_S, IH.
  Qed.

  Lemma mention_le f f' t i p cx r : f <= f' ->
    mention E f t i p cx = Ok r -> mention E f' t i p cx = Ok r.
  Proof. intros Hle. apply mention_below. now apply get_schema_le. Qed.

  Lemma schema_returns_det t cx m1 cx1 m2 cx2 :
    schema_returns E t cx m1 cx1 -> schema_returns E t cx m2 cx2 -> m1 = m2 /\ cx1 = cx2.
  Proof.
    intros [f1 H1] [f2 H2].
    apply (get_schema_le f1 (f1 + f2)) in H1; [|lia].
    apply (get_schema_le f2 (f1 + f2)) in H2; [|lia].
    rewrite H1 in H2. now injection H2.
  Qed.

  (** ** The returned schema does not depend on the context *)

  Definition ctx_free (gs : ty -> components -> res (model * components)) : Prop :=
    forall t cx1 m1 cx1' cx2 m2 cx2', gs t cx1 = Ok (m1, cx1') -> gs t cx2 = Ok (m2, cx2') -> m1 = m2.

  Lemma mention_ctx_free gs t i p cx1 r1 cx1' cx2 r2 cx2' : ctx_free gs ->
    mention_schema E gs t i p cx1 = Ok (r1, cx1') -> mention_schema E gs t i p cx2 = Ok (r2, cx2') -> r1 = r2.
  Proof.
    intros Hg. rewrite !mention_schema_eq. destruct (link_name t i) as [n|].
    - destruct (bm_mem n (cx_schemas cx1)), (bm_mem n (cx_schemas cx2)); intros H1 H2; binds; auto.
    - intros H1 H2. binds. do 2 f_equal. eapply Hg; eassumption.
  Qed.

  Lemma eval_vec_ctx_free {A B} (f : A -> components -> res (B * components)) l :
    Forall (fun a => forall cx1 r1 cx1' cx2 r2 cx2', f a cx1 = Ok (r1, cx1') -> f a cx2 = Ok (r2, cx2') -> r1 = r2) l ->
    forall cx1 r1 cx1' cx2 r2 cx2',
      eval_vec f l cx1 = Ok (r1, cx1') -> eval_vec f l cx2 = Ok (r2, cx2') -> r1 = r2.
  Proof.
    induction 1 as [|a l Ha Hl IH]; intros cx1 r1 cx1' cx2 r2 cx2'; cbn; intros H1 H2; binds; auto.
    f_equal; eauto.
  Qed.

  Lemma eval_ctx_free gs : ctx_free gs ->
    (forall c cx1 r1 cx1' cx2 r2 cx2', eval_r E gs c cx1 = Ok (r1, cx1') -> eval_r E gs c cx2 = Ok (r2, cx2') -> r1 = r2) /\
    (forall c cx1 r1 cx1' cx2 r2 cx2', eval_m E gs c cx1 = Ok (r1, cx1') -> eval_m E gs c cx2 = Ok (r2, cx2') -> r1 = r2) /\
    (forall c cx1 r1 cx1' cx2 r2 cx2', eval_d E gs c cx1 = Ok (r1, cx1') -> eval_d E gs c cx2 = Ok (r2, cx2') -> r1 = r2) /\
    (forall c cx1 r1 cx1' cx2 r2 cx2', eval_t E gs c cx1 = Ok (r1, cx1') -> eval_t E gs c cx2 = Ok (r2, cx2') -> r1 = r2).
  Proof.
    intros Hg. apply code_ind.
    - intros; autorewrite with eval in *; binds; auto.
    - intros c IH; intros; autorewrite with eval in *; binds. f_equal; eauto.
    - intros t i p; intros; autorewrite with eval in *. eapply mention_ctx_free; eauto.
    - intros c tag v id n IH; intros; autorewrite with eval in *; binds.
      match goal with H1 : eval_m _ _ _ _ = Ok (?a, _), H2 : eval_m _ _ _ _ = Ok (?b, _) |- context [?a] =>
        rewrite (IH _ _ _ _ _ _ H1 H2) end. reflexivity.
    - intros t p; intros; autorewrite with eval in *. binds. f_equal. eapply Hg; eauto.
    - intros d c IH; intros; autorewrite with eval in *; binds. f_equal; eauto.
    - intros l Hl; intros; autorewrite with eval in *; binds. f_equal. eapply eval_vec_ctx_free; eauto.
    - intros n c IH; intros; autorewrite with eval in *; binds. do 2 f_equal; eauto.
    - intros; autorewrite with eval in *; binds; auto.
    - intros c IH; intros; autorewrite with eval in *; binds. f_equal; eauto.
    - intros l Hl cx1 r1 cx1' cx2 r2 cx2' H1 H2. rewrite et_object in H1, H2.
      assert (Hs : forall pr rq cx1 r1 cx1' cx2 r2 cx2',
                eval_stmts (eval_r E gs) l pr rq cx1 = Ok (r1, cx1') ->
                eval_stmts (eval_r E gs) l pr rq cx2 = Ok (r2, cx2') -> r1 = r2).
      { clear - Hl. induction Hl as [|[[k c] b] l Hc Hl IH]; intros pr rq cx1 r1 cx1' cx2 r2 cx2'; cbn [eval_stmts];
          intros H1 H2; binds; auto.
        cbn in Hc. match goal with A : eval_r _ _ _ _ = Ok (?a, _), B : eval_r _ _ _ _ = Ok (?b, _) |- _ =>
          tryif constr_eq a b then fail else rewrite (Hc _ _ _ _ _ _ A B) in * end. eauto. }
      apply bind_Ok in H1 as ([[pr1 rq1] c1] & H1 & H1'). apply bind_Ok in H2 as ([[pr2 rq2] c2] & H2 & H2').
      pose proof (Hs _ _ _ _ _ _ _ _ H1 H2) as Heq. injection Heq as -> ->. binds. reflexivity.
    - intros c IH; intros; autorewrite with eval in *; binds. do 3 f_equal; eauto.
  Qed.

  Lemma get_schema_ctx_free f : ctx_free (get_schema E f).
  Proof.
    induction f as [|f IH]; intros t cx1 m1 cx1' cx2 m2 cx2'; [discriminate|]. cbn [get_schema].
    destruct t; cbn [schema_step]; intros H1 H2.
    - binds; auto.
    - eapply IH; eauto.
    - unfold get_schema_with_params in *. binds. f_equal. eapply IH; eauto.
    - binds. match goal with |- context [OneOf ?a] => match goal with |- context [OneOf ?b] =>
        tryif constr_eq a b then fail else replace b with a end end; [reflexivity|].
      eapply (eval_vec_ctx_free (fun t' => mention_schema E (get_schema E f) t' false params_default) ts); eauto.
      apply Forall_forall. intros. eapply mention_ctx_free; eauto.
    - binds. do 4 f_equal. eapply mention_ctx_free; eauto.
    - binds. do 6 f_equal. eapply mention_ctx_free; eauto.
    - eapply (proj1 (proj2 (eval_ctx_free _ IH))); eauto.
  Qed.

  Lemma schema_returns_ctx_free t cx1 m1 cx1' cx2 m2 cx2' :
    schema_returns E t cx1 m1 cx1' -> schema_returns E t cx2 m2 cx2' -> m1 = m2.
  Proof.
    intros [f1 H1] [f2 H2].
    apply (get_schema_le f1 (f1 + f2)) in H1; [|lia].
    apply (get_schema_le f2 (f1 + f2)) in H2; [|lia].
    eapply get_schema_ctx_free; eauto.
  Qed.

  Lemma mention_returns_ctx_free t i p cx1 r1 cx1' cx2 r2 cx2' :
    mention_returns E t i p cx1 r1 cx1' -> mention_returns E t i p cx2 r2 cx2' -> r1 = r2.
  Proof.
    intros [f1 H1] [f2 H2].
    apply (mention_le f1 (f1 + f2)) in H1; [|lia].
    apply (mention_le f2 (f1 + f2)) in H2; [|lia].
    eapply mention_ctx_free; eauto using get_schema_ctx_free.
  Qed.

  (** ** Mentions, in fuel-free form *)

  Lemma mention_returns_iff t i p cx r cx' :
    mention_returns E t i p cx r cx' <->
    match link_name t i with
    | Some n =>
        r = Link n /\
        (registered cx n /\ cx' = cx \/
         ~ registered cx n /\ exists m cx1, schema_returns E t cx m cx1 /\ cx' = cx_insert_schema n m cx1)
    | None => exists m, schema_returns E t cx m cx' /\ r = Inline (apply_params p m)
    end.
  Proof.
    unfold mention_returns, mention, registered.
    assert (Heq : (exists fuel, mention_schema E (get_schema E fuel) t i p cx = Ok (r, cx')) <->
            (exists fuel, match link_name t i with
              | Some n =>
                  if bm_mem n (cx_schemas cx) then Ok (Link n, cx)
                  else do (m, cx') <- get_schema E fuel t cx; Ok (Link n, cx_insert_schema n m cx')
              | None => do (m, cx') <- get_schema E fuel t cx; Ok (Inline (apply_params p m), cx')
              end = Ok (r, cx'))).
    { split; intros [f H]; exists f; [rewrite <- mention_schema_eq | rewrite mention_schema_eq]; exact H. }
    rewrite Heq; clear Heq. destruct (link_name t i) as [n|].
    - unfold bm_mem. destruct (bm_get n (cx_schemas cx)) eqn:Eg.
      + split.
        * intros [f H]. binds. split; auto. left. split; auto. discriminate.
        * intros [-> [[_ ->]|[Hn _]]]; [exists 0; reflexivity | exfalso; apply Hn; discriminate].
      + split.
        * intros [f H]. binds. split; auto. right. split; [tauto|]. do 2 eexists. split; [eexists; eauto|auto].
        * intros [-> [[Hn _]|[_ (m & cx1 & [f Hf] & ->)]]]; [congruence|]. exists f. now rewrite Hf.
    - split.
      + intros [f H]. binds. eexists; split; [eexists; eauto | auto].
      + intros (m & [f Hf] & ->). exists f. now rewrite Hf.
  Qed.

  (** ** Invariants along sites *)

  Section Invariant.
    Variable R : components -> components -> Prop.
    Hypothesis R_refl : forall cx, R cx cx.
    Hypothesis R_trans : forall cx1 cx2 cx3, R cx1 cx2 -> R cx2 cx3 -> R cx1 cx3.

    Lemma exec_sites_inv gs l :
      (forall s, In s l -> forall cx cx', exec_site gs s cx = Ok cx' -> R cx cx') ->
      forall cx cx', exec_sites gs l cx = Ok cx' -> R cx cx'.
    Proof.
      induction l as [|s l IH]; cbn; intros Hs cx cx' H.
      - injection H as <-. apply R_refl.
      - destruct (exec_site gs s cx) as [cx1|] eqn:Es; [|discriminate].
        apply R_trans with cx1.
        + apply (Hs s); [now left | exact Es].
        + apply IH; [|exact H]. intros s' Hin. apply Hs. now right.
    Qed.

    (** with a postcondition for each site, preserved by later steps *)
    Lemma exec_sites_post gs (W : site -> components -> Prop) l :
      (forall s cx cx', W s cx -> R cx cx' -> W s cx') ->
      (forall s, In s l -> forall cx cx', exec_site gs s cx = Ok cx' -> R cx cx' /\ W s cx') ->
      forall cx cx', exec_sites gs l cx = Ok cx' -> forall s, In s l -> W s cx'.
    Proof.
      intros Hst. induction l as [|s l IH]; cbn; intros Hs cx cx' H; [tauto|].
      destruct (exec_site gs s cx) as [cx1|] eqn:Es; [|discriminate].
      intros s' [<-|Hin].
      - destruct (Hs s (or_introl eq_refl) _ _ Es) as [_ Hw].
        eapply Hst; [exact Hw|]. eapply exec_sites_inv; [|exact H].
        intros s' Hin cx2 cx2' H2. apply (Hs s'); [now right | exact H2].
      - apply (IH (fun s1 H1 => Hs s1 (or_intror H1)) cx1); auto.
    Qed.
  End Invariant.
End Exec.
