(** Running the code of describe_api! (C77): paths, operations and parameters. *)
From Coq Require Import List NArith Bool PeanoNat Lia.
From Verif Require Import Str Api Expand ExpandSpec ExpandFacts.
Import ListNotations.

Lemma id_ne a b m m' : a <> b -> Id a m <> Id b m'.
Proof. intros H E. injection E as E _. contradiction. Qed.
Ltac ne_names := apply id_ne; let H := fresh in intros H; vm_compute in H; discriminate H.
Ltac ne :=
  solve [assumption | (apply not_eq_sym; assumption) | ne_names | (apply fresh_ne; assumption) | (apply not_eq_sym, fresh_ne; assumption) | auto].
Ltac lk := repeat first
  [ reflexivity | eassumption
  | rewrite lookup_cons_same | rewrite lookup_cons_other by ne
  | rewrite lookup_assign_same | rewrite lookup_assign_other by ne | discriminate
  | match goal with H : lookup ?x ?e = Some _ |- lookup ?x ?e <> None => rewrite H end ].

Section Templates.
  Variable E : env.
  Variable fuel : nat.
  Variable reason : N -> option str.
  Variable imported : bool.
  Variable seg : list tree -> option segment.
  Variable s : scope.
  Notation run := (run E fuel reason imported).
  Notation eval := (eval E fuel reason imported).
  Notation R := (run_all run).

  (** the clauses of [run] and [eval] *)
  Lemma run_let i x e : run (SLet i x) e = get (v, e1) <- eval x e; Done ((i, v) :: e1).
  Proof. reflexivity. Qed.
  Lemma run_assign i x e : run (SAssign i x) e = get (v, e1) <- eval x e; get _ <- typed (lookup i e1); Done (assign i v e1).
  Proof. reflexivity. Qed.
  Lemma run_set i f x e : run (SSet i f x) e =
    get (v, e1) <- eval x e; get w <- typed (lookup i e1); get w' <- typed (set_field w f v); Done (assign i w' e1).
  Proof. reflexivity. Qed.
  Lemma run_push i f x e : run (SPush i f x) e =
    get (v, e1) <- eval x e; get w <- typed (lookup i e1); get w' <- typed (push w f v); Done (assign i w' e1).
  Proof. reflexivity. Qed.
  Lemma run_insert i f k x e : run (SInsert i f k x) e =
    get (n, e1) <- eval k e; get (v, e2) <- eval x e1; get w <- typed (lookup i e2); get w' <- typed (insert w f n v); Done (assign i w' e2).
  Proof. reflexivity. Qed.
  Lemma run_call i m x e : run (SCall i m x) e =
    get (v, e1) <- eval x e; get w <- typed (lookup i e1); get w' <- typed (call w m v); Done (assign i w' e1).
  Proof. reflexivity. Qed.
  Lemma run_block l e : run (SBlock l) e = get e1 <- R l e; Done (leave e e1).
  Proof. reflexivity. Qed.
  Lemma eval_user x e : eval (EUser x) e = Done (x (scope_of e), e).
  Proof. reflexivity. Qed.
  Lemma eval_var x e v : lookup x e = Some v -> eval (EVar x) e = Done (v, e).
  Proof. intros H. cbn [Expand.eval]. now rewrite H. Qed.
  Lemma eval_val v e : eval (EVal v) e = Done (v, e).
  Proof. reflexivity. Qed.
  Lemma eval_struct n l e : eval (EStruct n l) e = get (vs, e1) <- eval_fields eval l e; get v <- typed (build n vs); Done (v, e1).
  Proof. reflexivity. Qed.
  Lemma fields_cons f x l e : eval_fields eval ((f, x) :: l) e =
    get (v, e1) <- eval x e; get (vs, e2) <- eval_fields eval l e1; Done ((f, v) :: vs, e2).
  Proof. reflexivity. Qed.
  Lemma eval_to_string x e : eval (EToString x) e = get (v, e1) <- eval x e; get t <- typed (as_display v); Done (XText t, e1).
  Proof. reflexivity. Qed.
  Lemma eval_block l x e : eval (EBlock l x) e = get e1 <- R l e; get (v, e2) <- eval x e1; Done (v, leave e e2).
  Proof. reflexivity. Qed.

  Lemma eval_text x t e : shows (scope_of e) x t -> eval (text x) e = Done (XText t, e).
  Proof. unfold text. rewrite eval_to_string, eval_user. intros [H|H]; cbn [obind]; rewrite H; reflexivity. Qed.
  Lemma eval_lit t e : eval (lit t) e = Done (XText t, e).
  Proof. reflexivity. Qed.
  Lemma eval_con c x e : eval (ECon c x) e = get (v, e1) <- eval x e; get w <- typed (apply_con c v); Done (w, e1).
  Proof. reflexivity. Qed.
  Lemma eval_some x v e e1 : eval x e = Done (v, e1) -> eval (some x) e = Done (XOption (Some v), e1).
  Proof. intros H. unfold some. rewrite eval_con, H. reflexivity. Qed.
  Lemma eval_mention res t e d : lookup res e = Some (XOpg d) ->
    eval (EMention res t) e = get (r, cx) <- api_mention E fuel t (og_components d); Done (XRef r, assign res (XOpg (put_cx d cx)) e).
  Proof. intros H. cbn [Expand.eval]. rewrite H. reflexivity. Qed.

  Lemma run_one x e : R [x] e = run x e.
  Proof. cbn [run_all]. now destruct (run x e). Qed.
  Lemma goes_step (M V : ident -> Prop) e e' out o : sb M e e' -> goes M V e' out o -> goes M V e out o.
  Proof.
    intros Hs H. destruct o; auto. destruct H as (ls & e0 & -> & Hs' & H). exists ls, e0. split; auto. split; auto. now apply (sb_trans M e e').
  Qed.
  Lemma tracks_cons x v tr e : tracks ((x, v) :: tr) e <-> lookup x e = Some v /\ tracks tr e.
  Proof.
    split.
    - intros H. split; [apply H; now left|]. intros y w Hy. apply H. now right.
    - intros [H1 H2] y w [[= <- <-]|Hy]; auto.
  Qed.
  Lemma tracks_nil e : tracks [] e.
  Proof. intros x v []. Qed.

  Definition omap {S} (enc : S -> components -> list (ident * val)) (o : outcome (S * components)) : outcome (list (ident * val)) :=
    obind o (fun p => Done (enc (fst p) (snd p))).

  Lemma omap_done {S} enc (o : outcome (S * components)) tr : omap enc o = Done tr -> exists st cx, o = Done (st, cx) /\ tr = enc st cx.
  Proof. destruct o as [[st cx]| | |]; try discriminate. intros [= <-]. eauto. Qed.

  (** ** Sequences *)
  Lemma seq_goes {X A S} (rel : X -> A -> Prop) (codes : mark -> list X -> list stmt) (exec : A -> S -> components -> outcome (S * components))
      (enc : S -> components -> list (ident * val)) (M V : ident -> Prop) (K : list (ident * val)) :
    (forall m, codes m [] = []) -> (forall m x l, codes m (x :: l) = codes m [x] ++ codes (1 :: m) l) ->
    (forall x, M x -> V x) -> (forall x, M x -> marked x) -> (forall x v, In (x, v) K -> V x /\ ~ M x) ->
    forall l la, Forall2 rel l la ->
    (forall m x a st cx e, In x l -> m <> [] -> (forall y, V y -> fresh m y) -> rel x a -> tracks (enc st cx) e -> tracks K e -> scope_of e = s ->
       goes M V e (R (codes m [x]) e) (omap enc (exec a st cx))) ->
    forall m st cx e, m <> [] -> (forall y, V y -> fresh m y) -> tracks (enc st cx) e -> tracks K e -> scope_of e = s ->
    goes M V e (R (codes m l) e) (omap enc (exec_list exec la st cx)).
  Proof.
    intros Hnil Hcons HMV HMm HK l la Hl. induction Hl as [|x a l la Hx Hl IH]; intros Hstep m st cx e Hm Hf Ht HtK Hs.
    - rewrite Hnil. cbn. now apply goes_done.
    - rewrite Hcons, run_all_app. cbn [exec_list]. pose proof (Hstep m x a st cx e (or_introl eq_refl) Hm Hf Hx Ht HtK Hs) as H1.
      destruct (exec a st cx) as [[st1 cx1]| | |].
      + cbn [obind]. unfold omap at 1 in H1. cbn [obind fst snd] in H1.
        change (omap enc (exec_list exec la st1 cx1)) with (obind (Done (enc st1 cx1)) (fun _ => omap enc (exec_list exec la st1 cx1))).
        apply goes_bind; auto. intros tr e1 [= <-] _ Ht1 Hs1 Hl1. apply IH; auto.
        * intros. apply Hstep; auto. now right.
        * discriminate.
        * intros y Hy. now apply fresh_cons, Hf.
        * intros y v Hy. destruct (HK _ _ Hy) as [Hv Hn]. rewrite Hl1; auto.
        * congruence.
      + cbn in *. now rewrite H1.
      + cbn in *. now rewrite H1.
      + exact I.
  Qed.

  (** ** Parameters *)
  Section Params.
    Variable d : opg.
    Variable res : ident.
    Hypothesis res_marked : marked res.

    Definition enc_param (par : ident) (a : op_parameter) (cx : components) : list (ident * val) :=
      [(res, XOpg (put_cx d cx)); (par, XParameter a)].
    Lemma param_prop_goes par p a st cx e (V : ident -> Prop) : res <> par -> marked par ->
      reads_param_prop s p a -> tracks (enc_param par st cx) e -> scope_of e = s ->
      goes (fun x => x = res \/ x = par) V e (R [expand_param_prop res par p] e) (omap (enc_param par) (exec_param_prop E fuel a st cx)).
    Proof.
      intros Hne Hm Hp Ht Hs.
      assert (Hr : lookup res e = Some (XOpg (put_cx d cx))) by (apply Ht; now left).
      assert (Hc : lookup par e = Some (XParameter st)) by (apply Ht; right; now left).
      unfold expand_param_prop, omap. rewrite run_all_cons. cbn [run_all].
      destruct Hp as [x t Hx|x b Hx|x b Hx|t]; cbn [exec_param_prop obind fst snd]; unfold holds in *; rewrite <- ?Hs in *.
      - rewrite run_set, (eval_some _ _ _ _ (eval_text _ _ _ Hx)). cbn [obind]. rewrite Hc. cbn [obind typed set_field as_option as_text option_map].
        apply goes_sb; [apply sb_assign; auto|]. intros y v [[= <- <-]|[[= <- <-]|[]]]; lk.
      - rewrite run_set, eval_user. cbn [obind]. rewrite Hc, Hx. cbn [obind typed set_field as_bool option_map].
        apply goes_sb; [apply sb_assign; auto|]. intros y v [[= <- <-]|[[= <- <-]|[]]]; lk.
      - rewrite run_set, eval_user. cbn [obind]. rewrite Hc, Hx. cbn [obind typed set_field as_bool option_map].
        apply goes_sb; [apply sb_assign; auto|]. intros y v [[= <- <-]|[[= <- <-]|[]]]; lk.
      - unfold some. rewrite run_set, eval_con, (eval_mention _ _ _ _ Hr). cbn [put_cx og_components].
        destruct (api_mention E fuel t cx) as [[r cx']| | |]; cbn [obind goes]; auto.
        cbn [apply_con typed obind]. rewrite lookup_assign_other by ne. rewrite Hc. cbn [obind typed set_field as_option as_ref option_map].
        apply goes_sb.
        + eapply sb_trans; apply sb_assign; auto.
        + intros y v [[= <- <-]|[[= <- <-]|[]]]; lk.
    Qed.
    Lemma eval_parameter_literal i b t e cx : lookup res e = Some (XOpg (put_cx d cx)) ->
      eval (parameter_literal i b (EMention res t)) e = get (r, cx') <- api_mention E fuel t cx;
        Done (XParameter {| pr_description := None; pr_in := i; pr_required := b; pr_deprecated := false; pr_schema := Some r |},
              assign res (XOpg (put_cx d cx')) e).
    Proof.
      intros H. unfold parameter_literal. rewrite eval_struct. unfold none, some. rewrite !fields_cons, !eval_val. cbn [obind].
      rewrite fields_cons, eval_val. cbn [obind]. rewrite fields_cons, eval_val. cbn [obind]. rewrite fields_cons, eval_val. cbn [obind].
      rewrite fields_cons, eval_con, (eval_mention _ _ _ _ H). cbn [put_cx og_components]. destruct (api_mention E fuel t cx) as [[r cx']| | |]; reflexivity.
    Qed.

    (** what holds the parameters: an operation or a path *)
    Variable ctx : ident.
    Variable W : bmap str op_parameter -> val.
    Hypothesis ctx_marked : marked ctx.
    Hypothesis ctx_ne : res <> ctx.
    Hypothesis W_insert : forall m n a, insert (W m) (Some Fparameters) (XText n) (XParameter a) = Some (W (bm_insert n a m)).
    Definition enc_params (m : bmap str op_parameter) (cx : components) : list (ident * val) := [(res, XOpg (put_cx d cx)); (ctx, W m)].
    Notation M := (fun x => x = res \/ x = ctx).

    Lemma param_block (V : ident -> Prop) mk name x n i b t props props' m cx e :
      mk <> [] -> V res -> V ctx -> (forall y, V y -> fresh mk y) -> 
      (forall e, scope_of e = s -> eval name e = Done (XText n, e)) -> Forall2 (reads_param_prop s) props props' ->
      tracks (enc_params m cx) e -> scope_of e = s -> x = Id (u "parameter") mk ->
      goes M V e
        (R [SBlock (SLet x (parameter_literal i b (EMention res t)) :: map (expand_param_prop res x) props ++
                    [SInsert ctx (Some Fparameters) name (EVar x)])] e)
        (omap enc_params (get (r, cx1) <- api_mention E fuel t cx;
                          get (a, cx2) <- exec_list (exec_param_prop E fuel) props'
                            {| pr_description := None; pr_in := i; pr_required := b; pr_deprecated := false; pr_schema := Some r |} cx1;
                          Done (bm_insert n a m, cx2))).
    Proof.
      intros Hmk Hvr Hvc Hf Hname Hp Ht Hs ->. set (par := Id (u "parameter") mk).
      assert (Hpr : res <> par) by (apply fresh_ne, Hf; auto). assert (Hpc : ctx <> par) by (apply fresh_ne, Hf; auto).
      assert (Hpv : ~ V par). { intros Hv. apply Hf in Hv. now apply (Hv []). }
      apply tracks_cons in Ht as [Hr Ht]. apply tracks_cons in Ht as [Hc _].
      rewrite run_one, run_block. apply goes_leave.
      { intros y tr v Htr Hy. apply omap_done in Htr as (q & cq & _ & ->). cbn in Hy. destruct Hy as [[= <- <-]|[[= <- <-]|[]]]; auto. }
      rewrite run_all_cons, run_let, (eval_parameter_literal _ _ _ _ _ Hr).
      destruct (api_mention E fuel t cx) as [[r cx1]| | |]; cbn [obind omap goes]; auto.
      eapply goes_step; [apply sb_assign with (x := res); auto|]. eapply (goes_let _ _ par); [exact Hmk|exact Hpv|cbn; intros y [->| ->]; auto|].
      rewrite run_all_app.
      set (a0 := {| pr_description := None; pr_in := i; pr_required := b; pr_deprecated := false; pr_schema := Some r |}).
      set (e0 := (par, XParameter a0) :: assign res (XOpg (put_cx d cx1)) e).
      assert (H1 : goes (fun y => y = res \/ y = par) (fun y => y = par \/ V y) e0 (R (map (expand_param_prop res par) props) e0)
        (omap (enc_param par) (exec_list (exec_param_prop E fuel) props' a0 cx1))).
      { apply (seq_goes (reads_param_prop s) (fun _ l => map (expand_param_prop res par) l) (exec_param_prop E fuel) (enc_param par) _ _ [])
          with (m := 0 :: mk); auto.
        - intros y [->| ->]; auto.
        - intros y [->| ->]; auto.
        - intros y v [].
        - intros. cbn [map]. now apply param_prop_goes.
        - discriminate.
        - intros y [->|Hy]; [apply fresh_self|now apply fresh_cons, Hf].
        - subst e0. apply tracks_cons. split; [lk|]. apply tracks_cons. split; [lk|apply tracks_nil].
        - apply tracks_nil.
        - subst e0. rewrite scope_cons, scope_assign; auto. }
      destruct (exec_list (exec_param_prop E fuel) props' a0 cx1) as [[a cx2]| | |];
        [|cbn in H1 |- *; rewrite H1; reflexivity|cbn in H1 |- *; rewrite H1; reflexivity|exact I].
      unfold omap in H1 |- *. cbn [obind fst snd] in H1 |- *.
      eapply (goes_then _ _ _ _ _ _ _ _ _ (fun x Hx => _) (fun x Hx => _) (fun x Hx => _) (fun x Hx => _) (fun x Hx => _) H1).
      Unshelve. 2-6: cbn in *; intuition (subst; auto).
      intros e1 Ht1 Hs1 Hl1.
      assert (Hs2 : scope_of e1 = s). { rewrite Hs1. subst e0. rewrite scope_cons, scope_assign; auto. }
      assert (Hc1 : lookup ctx e1 = Some (W m)). { rewrite Hl1; [|auto|intros [|]; congruence]. subst e0. lk. }
      rewrite run_one, run_insert, Hname by auto. cbn [obind].
      apply tracks_cons in Ht1 as [Hr1 Ht1]. apply tracks_cons in Ht1 as [Hp1 _]. rewrite (eval_var _ _ _ Hp1). cbn [obind].
      rewrite Hc1. cbn [typed obind]. rewrite W_insert. cbn [typed obind]. apply goes_sb; [apply sb_assign; auto|].
      apply tracks_cons. split; [lk|]. apply tracks_cons. split; [lk|apply tracks_nil].
    Qed.
    Lemma params_goes (V : ident -> Prop) l la : V res -> V ctx -> Forall2 (reads_param s) l la ->
      forall mk m cx e, mk <> [] -> (forall y, V y -> fresh mk y) -> tracks (enc_params m cx) e -> scope_of e = s ->
      goes M V e (R (expand_params mk res ctx l) e) (omap enc_params (exec_list (exec_param E fuel) la m cx)).
    Proof.
      intros Hvr Hvc Hl mk m cx e Hmk Hf Ht Hs.
      eapply (seq_goes (reads_param s) (fun mk l => expand_params mk res ctx l) _ _ _ _ []); eauto using tracks_nil.
      - now intros m' [] l'.
      - intros y [->| ->]; auto.
      - intros y [->| ->]; auto.
      - intros y v [].
      - clear - Hvr Hvc res_marked ctx_marked ctx_ne W_insert. intros mk x a m cx e _ Hmk Hf Hx Ht _ Hs. destruct Hx as [x n ps ps' Hn Hps|n t ps ps' Hps]; cbn [expand_params exec_param].
        + apply param_block with (mk := mk) (name := text x); auto. intros e' He'. apply eval_text. now rewrite He'.
        + apply param_block with (mk := mk) (name := lit n); auto.
    Qed.

    (** ** Url templates *)
    Lemma length_assign x v e : length (assign x v e) = length e.
    Proof. apply (sb_length (fun y => y = x)). now apply sb_assign. Qed.
    Lemma leave_same f f2 : length f2 = length f -> leave f f2 = f2.
    Proof. intros H. unfold leave. rewrite H, Nat.sub_diag. reflexivity. Qed.
    Lemma leave_cons e b e2 : length e2 = length e -> leave e (b :: e2) = e2.
    Proof. intros H. unfold leave. cbn [length]. rewrite H. replace (S (length e) - length e) with 1 by lia. reflexivity. Qed.
    Lemma leave_cons2 e b b' e2 : length e2 = length e -> leave e (b :: b' :: e2) = e2.
    Proof. intros H. unfold leave. cbn [length]. rewrite H. replace (S (S (length e)) - length e) with 2 by lia. reflexivity. Qed.
    Lemma assign_cons_other x v y w e : x <> y -> assign x v ((y, w) :: e) = (y, w) :: assign x v e.
    Proof. intros H. cbn. destruct (ident_eq_dec x y); [contradiction|reflexivity]. Qed.

    Lemma eval_url_param name n t m cx e : res <> name -> ctx <> name ->
      tracks (enc_params m cx) e ->
      eval (insert_url_param res ctx name t) ((name, XText n) :: e) = get (r, cx') <- api_mention E fuel t cx;
        Done (XSegment (PeParameter n),
              (name, XText n) :: assign ctx (W (bm_insert n (path_parameter r) m)) (assign res (XOpg (put_cx d cx')) e)).
    Proof.
      intros Hn1 Hn2 Ht. apply tracks_cons in Ht as [Hr Ht]. apply tracks_cons in Ht as [Hc _].
      unfold insert_url_param. rewrite eval_block, run_one, run_insert, (eval_var _ _ _ (lookup_cons_same _ _ _)). cbn [obind].
      rewrite (eval_parameter_literal _ _ _ _ cx) by lk. destruct (api_mention E fuel t cx) as [[r cx']| | |]; cbn [obind]; auto.
      rewrite assign_cons_other by ne. rewrite lookup_cons_other, lookup_assign_other, Hc by ne. cbn [typed obind].
      rewrite W_insert. cbn [typed obind]. rewrite assign_cons_other by ne.
      rewrite eval_con, (eval_var _ _ _ (lookup_cons_same _ _ _)). cbn [obind apply_con typed].
      rewrite leave_same; [reflexivity|]. cbn. now rewrite !length_assign.
    Qed.
    Lemma lower_first_split t : lower_first t = match split_first t with Some (a, b) => Some (to_lower a ++ b) | None => None end.
    Proof. destruct t as [|c t]; [reflexivity|]. cbn. now destruct (c <? 128)%N. Qed.
    Lemma eval_type_name mk txt e n : type_param_name txt = Some n ->
      eval (EBlock [SLet (Id (u "full_name") mk) (EVal (XLit txt)); SLet (Id (u "name") mk) (EAfterColon (EVar (Id (u "full_name") mk)))]
              (EConcat (EToLowercase (EFirst (EVar (Id (u "name") mk)))) (ERest (EVar (Id (u "name") mk))))) e = Done (XText n, e).
    Proof.
      unfold type_param_name. rewrite lower_first_split. fold (after_colon txt). destruct (split_first (after_colon txt)) as [[a b]|] eqn:Es; [|discriminate].
      intros [= <-]. rewrite eval_block, run_all_cons, run_let. cbn [Expand.eval obind]. rewrite run_one, run_let.
      cbn [Expand.eval obind]. rewrite lookup_cons_same. cbn [typed obind]. rewrite lookup_cons_same. cbn [typed obind]. rewrite Es. cbn [obind].
      rewrite lookup_cons_same. cbn [typed obind]. rewrite Es. cbn [obind].
      rewrite leave_cons2; reflexivity.
    Qed.
    Lemma eval_type_panics mk txt e : type_param_name txt = None ->
      eval (EBlock [SLet (Id (u "full_name") mk) (EVal (XLit txt)); SLet (Id (u "name") mk) (EAfterColon (EVar (Id (u "full_name") mk)))]
              (EConcat (EToLowercase (EFirst (EVar (Id (u "name") mk)))) (ERest (EVar (Id (u "name") mk))))) e = Panicked.
    Proof.
      unfold type_param_name. rewrite lower_first_split. fold (after_colon txt). destruct (split_first (after_colon txt)) as [[a b]|] eqn:Es; [discriminate|].
      intros _. rewrite eval_block, run_all_cons, run_let. cbn [Expand.eval obind]. rewrite run_one, run_let.
      cbn [Expand.eval obind]. rewrite lookup_cons_same. cbn [typed obind]. rewrite lookup_cons_same. cbn [typed obind]. rewrite Es. reflexivity.
    Qed.

    Variable path : ident.
    Hypothesis path_marked : marked path.
    Hypothesis path_ne : res <> path /\ ctx <> path.
    Definition enc_url (st : Doc.path * bmap str op_parameter) (cx : components) : list (ident * val) :=
      [(path, XSegments (fst st)); (res, XOpg (put_cx d cx)); (ctx, W (snd st))].
    Notation M3 := (fun x => x = path \/ x = res \/ x = ctx).
    Lemma push_param mk n name t p m cx e x (V : ident -> Prop) : V res -> V ctx -> (forall y, V y -> fresh mk y) ->
      tracks (enc_url (p, m) cx) e -> name = Id (u "name") mk -> (forall e, eval x e = Done (XText n, e)) ->
      goes M3 V e (R [SPush path None (EBlock [SLet name x] (insert_url_param res ctx name t))] e)
        (omap enc_url (get (r, cx') <- api_mention E fuel t cx; Done (p ++ [PeParameter n], bm_insert n (path_parameter r) m, cx'))).
    Proof.
      intros Hvr Hvc Hf Ht -> Hx. destruct path_ne as [Hp1 Hp2]. apply tracks_cons in Ht as [Hp Ht]. pose proof Ht as Ht0.
      apply tracks_cons in Ht as [Hr Ht]. apply tracks_cons in Ht as [Hc _].
      rewrite run_one, run_push, eval_block, run_one, run_let, Hx. cbn [obind].
      rewrite (eval_url_param _ n t m cx e); [|apply fresh_ne; auto|apply fresh_ne; auto|exact Ht0].
      destruct (api_mention E fuel t cx) as [[r cx']| | |]; cbn [obind omap goes]; auto.
      rewrite leave_cons by now rewrite !length_assign. rewrite !lookup_assign_other, Hp by (apply not_eq_sym; assumption). cbn [typed obind push fst snd].
      apply goes_sb.
      - eapply sb_trans; [|apply sb_assign; auto]. eapply sb_trans; apply sb_assign; auto.
      - apply tracks_cons. split; [lk|]. apply tracks_cons. split; [lk|]. apply tracks_cons. split; [lk|]. apply tracks_nil.
    Qed.
    Lemma segment_goes mk sg st cx e (V : ident -> Prop) : V res -> V ctx -> (forall y, V y -> fresh mk y) ->
      tracks (enc_url st cx) e ->
      goes M3 V e (R [expand_segment mk path res ctx sg] e) (omap enc_url (exec_segment E fuel sg st cx)).
    Proof.
      intros Hvr Hvc Hf Ht. destruct st as [p m]. destruct sg as [l|txt t|n t]; cbn [expand_segment exec_segment].
      - destruct path_ne as [Hp1 Hp2]. apply tracks_cons in Ht as [Hp Ht]. apply tracks_cons in Ht as [Hr Ht]. apply tracks_cons in Ht as [Hc _].
        rewrite run_one, run_push, eval_con, eval_lit. cbn [obind apply_con typed]. rewrite Hp. cbn [typed obind push]. apply goes_sb; [apply sb_assign; auto|].
        apply tracks_cons. split; [lk|]. apply tracks_cons. split; [lk|]. apply tracks_cons. split; [lk|]. apply tracks_nil.
      - destruct (type_param_name txt) as [n|] eqn:En.
        + apply (push_param mk n); auto. intros e'. now apply eval_type_name.
        + rewrite run_one, run_push, eval_block, run_one, run_let, (eval_type_panics _ _ _ En). reflexivity.
      - apply (push_param mk n); auto.
    Qed.
    Lemma groups_goes l mk st cx e (V : ident -> Prop) : mk <> [] -> V path -> V res -> V ctx -> (forall y, V y -> fresh mk y) ->
      tracks (enc_url st cx) e -> scope_of e = s ->
      goes M3 V e (R (expand_groups seg mk path res ctx l) e) (omap enc_url (exec_list (exec_group E fuel seg) l st cx)).
    Proof.
      intros Hmk Hvp Hvr Hvc Hf Ht Hs.
      apply (seq_goes eq (fun mk l => expand_groups seg mk path res ctx l) (exec_group E fuel seg) enc_url _ V []) with (m := mk); auto using tracks_nil.
      - intros y [->|[->| ->]]; auto.
      - intros y [->|[->| ->]]; auto.
      - intros y v [].
      - induction l; constructor; auto.
      - intros m' x a st' cx' e' _ Hm' Hf' <- Ht' _ Hs'. cbn [expand_groups]. unfold exec_group. destruct (group_text x) as [ts|]; [|exact I].
        destruct (seg ts) as [sg|]; [|exact I]. apply segment_goes; auto. intros y Hy. now apply fresh_cons, Hf'.
    Qed.
    Lemma url_goes url mk cx e (V : ident -> Prop) : mk <> [] -> V path -> V res -> V ctx -> (forall y, V y -> fresh mk y) ->
      tracks (enc_url ([], []) cx) e -> scope_of e = s ->
      goes M3 V e (R (expand_url seg mk path res ctx url) e) (omap enc_url (exec_url E fuel seg url cx)).
    Proof.
      intros Hmk Hvp Hvr Hvc Hf Ht Hs. unfold expand_url, exec_url. destruct (munch url []) as [l|]; [|exact I]. now apply groups_goes.
    Qed.
  End Params.
End Templates.
