(** Running the code of describe_api! (C77): operations, paths and callbacks. *)
From Coq Require Import List NArith Bool PeanoNat Lia.
From Verif Require Import Str Api ApiFacts Expand ExpandSpec ExpandFacts ExpandFacts2.
Import ListNotations.

(** a new variable that is not used later by those who follow *)
Lemma goes_new (M V : ident -> Prop) x v e out o : marked x -> ~ V x -> (forall y, M y -> V y) -> goes M V ((x, v) :: e) out o -> goes M V e out o.
Proof.
  intros Hm Hv HMV H. destruct o as [tr| | |]; auto. destruct H as (ls & e0 & -> & Hs & Hq & Ht). inversion Hs; subst.
  exists (ls ++ [(x, v')]), e'. rewrite <- app_assoc. split; auto. split; [|split].
  - eapply sb_mono; [|eassumption]. cbn. tauto.
  - apply Forall_app. split; auto.
  - exact Ht.
Qed.
Ltac trk := repeat (apply tracks_cons; split; [solve [lk]|]); apply tracks_nil.
Ltac trk_in H := repeat (apply tracks_cons in H as [? H]); clear H.

Section Templates.
  Variable E : env.
  Variable fuel : nat.
  Variable reason : N -> option str.
  Variable imported : bool.
  Variable seg : list tree -> option segment.
  Variable s : scope.
  Notation run := (run E fuel reason imported).
  Notation eval := (eval E fuel reason imported).
  Notation R := (run_all run).
  Notation eval_var := (eval_var E fuel reason imported _ _ _).
  Notation eval_text := (eval_text E fuel reason imported _ _ _).
  Notation eval_some := (eval_some E fuel reason imported _ _ _ _).
  Notation eval_mention := (eval_mention E fuel reason imported _ _ _ _).

  (** ** Operations *)
  Section Ops.
    Variable d : opg.
    Variable res ctx : ident.
    Hypothesis res_marked : marked res.
    Hypothesis ctx_marked : marked ctx.
    Hypothesis ctx_ne : res <> ctx.
    Definition enc_op (o : operation) (cx : components) : list (ident * val) := [(res, XOpg (put_cx d cx)); (ctx, XOperation o)].
    Notation M := (fun x => x = res \/ x = ctx).

    Lemma op_assign (V : ident -> Prop) o o' cx e : tracks (enc_op o cx) e -> goes M V e (Done (assign ctx (XOperation o') e)) (Done (enc_op o' cx)).
    Proof. intros Ht. trk_in Ht. apply goes_sb; [apply sb_assign; auto|]. trk. Qed.
    Lemma op_assign2 (V : ident -> Prop) o o' cx cx' e : tracks (enc_op o cx) e ->
      goes M V e (Done (assign ctx (XOperation o') (assign res (XOpg (put_cx d cx')) e))) (Done (enc_op o' cx')).
    Proof. intros Ht. trk_in Ht. apply goes_sb; [eapply sb_trans; apply sb_assign; auto|]. trk. Qed.

    (** *** Bodies *)
    Lemma build_body a b r : build NRequestBody [(Fdescription, XOption (Some (XText a))); (Frequired, XBool b); (Fschema, XRef r)] =
      Some (XBody {| rb_description := Some a; rb_required := b; rb_schema := r |}).
    Proof. reflexivity. Qed.
    Definition enc_body (ds rq sc : ident) (st : option str * bool * option model_ref) (cx : components) : list (ident * val) :=
      let '(a, b, c) := st in
      [(res, XOpg (put_cx d cx)); (ds, XOption (option_map XText a)); (rq, XBool b); (sc, match c with Some r => XRef r | None => XMissing end)].
    Lemma body_prop_goes ds rq sc (V : ident -> Prop) p st cx e : res <> ds -> res <> rq -> res <> sc -> ds <> rq -> ds <> sc -> rq <> sc ->
      marked sc -> ~ V sc -> tracks (enc_body ds rq sc st cx) e ->
      goes (fun x => x = rq \/ x = ds \/ x = res) V e (R [expand_body_prop res ds rq sc p] e) (omap (enc_body ds rq sc) (exec_body_prop E fuel p st cx)).
    Proof.
      intros H1 H2 H3 H4 H5 H6 Hm Hv Ht. destruct st as [[a b] c]. cbn in Ht. trk_in Ht.
      rewrite run_one. destruct p as [t|t|b']; cbn [expand_body_prop exec_body_prop].
      - rewrite run_let, (eval_mention H). cbn [put_cx og_components]. destruct (api_mention E fuel t cx) as [[r cx']| | |]; cbn [obind omap goes]; auto.
        exists [(sc, XRef r)], (assign res (XOpg (put_cx d cx')) e). split; [reflexivity|]. split; [apply sb_assign; auto|]. split; [auto|].
        cbn [fst snd enc_body app]. trk.
      - rewrite run_assign. unfold some. rewrite eval_con, eval_lit. cbn [obind apply_con typed]. rewrite H0. cbn [typed obind omap fst snd].
        apply goes_sb; [apply sb_assign; auto|]. cbn. trk.
      - rewrite run_assign, eval_val. cbn [obind]. rewrite H7. cbn [typed obind omap fst snd]. apply goes_sb; [apply sb_assign; auto|]. cbn. trk.
    Qed.
    Lemma body_goes mk b o cx e (V : ident -> Prop) : mk <> [] -> V res -> V ctx -> (forall y, V y -> fresh mk y) -> tracks (enc_op o cx) e ->
      scope_of e = s ->
      goes M V e (R (expand_body mk res ctx b) e) (omap enc_op (get (x, cx') <- exec_body E fuel b cx; Done (with_request_body x o, cx'))).
    Proof.
      intros Hmk Hvr Hvc Hf Ht Hs. destruct b as [l|t]; cbn [expand_body exec_body].
      - set (ds := Id (u "description") mk). set (rq := Id (u "required") mk). set (sc := Id (u "schema") mk).
        assert (Hn : forall y n, V y -> y <> Id n mk) by (intros; apply fresh_ne; auto).
        assert (Hnv : forall n, ~ V (Id n mk)) by (intros n Hv; now apply (Hn _ n Hv)).
        assert (Hn1 : ds <> rq) by ne_names. assert (Hn2 : ds <> sc) by ne_names. assert (Hn3 : rq <> sc) by ne_names.
        assert (Hr1 : res <> ds) by (now apply Hn). assert (Hr2 : res <> rq) by (now apply Hn). assert (Hr3 : res <> sc) by (now apply Hn).
        assert (Hc1 : ctx <> ds) by (now apply Hn). assert (Hc2 : ctx <> rq) by (now apply Hn). assert (Hc3 : ctx <> sc) by (now apply Hn).
        cbn [app]. unfold none. rewrite run_all_cons, run_let, eval_val. cbn [obind].
        eapply (goes_let _ _ ds); [exact Hmk|apply Hnv|cbn; intros y [->| ->]; auto|].
        rewrite run_all_cons, run_let, eval_val. cbn [obind].
        eapply (goes_let _ _ rq); [exact Hmk|intros [H|H]; [now apply Hn1|now apply Hnv in H]|cbn; intros y [->|[->| ->]]; auto|].
        rewrite run_all_cons, run_let, eval_val. cbn [obind].
        assert (Hnsc : ~ (sc = rq \/ sc = ds \/ V sc)). { intros [H|[H|H]]; [now apply Hn3|now apply Hn2|now apply Hnv in H]. }
        eapply (goes_new _ _ sc); [exact Hmk|exact Hnsc|cbn; intros y [->|[->|[->| ->]]]; auto|].
        rewrite run_all_app.
        set (e0 := (sc, XMissing) :: (rq, XBool true) :: (ds, XOption None) :: e). pose proof Ht as Ht0. trk_in Ht0.
        assert (H1 : goes (fun x => x = rq \/ x = ds \/ x = res) (fun y => y = rq \/ y = ds \/ V y) e0 (R (map (expand_body_prop res ds rq sc) l) e0)
          (omap (enc_body ds rq sc) (exec_list (exec_body_prop E fuel) l (None, true, None) cx))).
        { apply (seq_goes E fuel reason imported s eq (fun _ l => map (expand_body_prop res ds rq sc) l) (exec_body_prop E fuel) (enc_body ds rq sc) _ _ [])
            with (m := 0 :: mk); auto.
          - intros y [->|[->| ->]]; auto.
          - intros y [->|[->| ->]]; auto.
          - intros y v [].
          - induction l; constructor; auto.
          - intros m' x a st' cx' e' _ Hm' Hf' <- Ht' _ Hs'. cbn [map].
            apply body_prop_goes; auto; try (apply Hn; auto); try exact Hnsc.
          - discriminate.
          - intros y [->|[->|Hy]]; try apply fresh_self. now apply fresh_cons, Hf.
          - subst e0. cbn. trk.
          - apply tracks_nil.
          - subst e0. rewrite !scope_cons; auto. }
        destruct (exec_list (exec_body_prop E fuel) l (None, true, None) cx) as [[[[a b] c] cx2]| | |];
          [|cbn in H1 |- *; rewrite H1; reflexivity|cbn in H1 |- *; rewrite H1; reflexivity|exact I].
        cbn [obind]. destruct c as [r|]; [|exact I].
        unfold omap in H1 |- *. cbn [obind fst snd] in H1 |- *.
        eapply (goes_then _ _ _ _ _ _ _ _ _ (fun x Hx => _) (fun x Hx => _) (fun x Hx => _) (fun x Hx => _) (fun x Hx => _) H1).
        Unshelve. 2-6: cbn in *; intuition (subst; auto).
        intros e1 Ht1 Hs1 Hl1. cbn in Ht1. trk_in Ht1.
        assert (Hc0 : lookup ctx e1 = Some (XOperation o)).
        { rewrite Hl1; [|auto|intros [H'|[H'|H']]; [now apply Hn in H'|now apply Hn in H'|congruence]]. subst e0. lk. }
        rewrite run_one, run_call, eval_struct, fields_cons.
        replace (eval (EOr (EVar ds) (some (lit []))) e1) with
          (Done (XOption (Some (XText match a with Some t => t | None => [] end)), e1)).
        2: { cbn [Expand.eval]. rewrite H3. cbn [typed obind]. now destruct a. }
        cbn [obind]. rewrite fields_cons, (eval_var H4). cbn [obind]. rewrite fields_cons, (eval_var H5). cbn [obind eval_fields].
        rewrite build_body. cbn [typed obind]. rewrite Hc0. cbn [typed obind call]. apply goes_sb; [apply sb_assign; auto|]. unfold enc_op.
        replace (match a with Some _ => a | None => Some [] end) with (Some match a with Some t => t | None => [] end) by now destruct a.
        trk.
      - pose proof Ht as Ht0. trk_in Ht0. rewrite run_one, run_call, eval_struct. unfold some. rewrite fields_cons, eval_con, eval_lit. cbn [obind apply_con typed].
        rewrite fields_cons, eval_val. cbn [obind]. rewrite fields_cons, (eval_mention H). cbn [put_cx og_components].
        destruct (api_mention E fuel t cx) as [[r cx']| | |]; cbn [obind omap goes]; auto.
        cbn [eval_fields obind]. rewrite build_body. cbn [typed obind]. rewrite lookup_assign_other, H0 by ne. cbn [typed obind call]. now apply op_assign2 with (o := o) (cx := cx).
    Qed.

    (** *** Responses *)
    Lemma build_response a r : build NResponse [(Fdescription, XText a); (Fschema, XOption (option_map XRef r))] =
      Some (XResponse {| rs_description := a; rs_schema := r |}).
    Proof. now destruct r. Qed.
    Lemma response_goes code ds r r' o cx e (V : ident -> Prop) : reads_response s r r' -> tracks (enc_op o cx) e -> scope_of e = s ->
      goes M V e (R (expand_response res ctx code ds r) e)
        (omap enc_op (get (x, cx') <- exec_response_schema E fuel r' cx;
                      Done (insert_response code {| rs_description := response_description reason code ds; rs_schema := x |} o, cx'))).
    Proof.
      intros Hr Ht Hs. pose proof Ht as Ht0. trk_in Ht0. unfold expand_response. rewrite run_one, run_insert, eval_val. cbn [obind].
      rewrite eval_struct, fields_cons.
      replace (eval (EUnwrapOrElse (EExtract (option_map lit ds)) (EUnwrapOrElse (EReason code) (lit []))) e)
        with (Done (XText (response_description reason code ds), e)).
      2: { unfold response_description. destruct ds as [t|]; cbn; [reflexivity|]. now destruct (reason code). }
      cbn [obind]. rewrite fields_cons. unfold some, none.
      destruct Hr as [| |t|x r Hx]; cbn [exec_response_schema].
      - rewrite eval_val. cbn [obind eval_fields omap fst snd]. rewrite (build_response _ None). cbn [typed obind]. rewrite H0. cbn [typed obind insert].
        now apply op_assign with (o := o).
      - rewrite eval_con, (eval_mention H). cbn [put_cx og_components].
        destruct (api_mention E fuel (TPrim PUnit) cx) as [[r cx']| | |]; cbn [obind omap goes]; auto.
        cbn [eval_fields apply_con typed obind]. rewrite (build_response _ (Some r)). cbn [typed obind]. rewrite lookup_assign_other, H0 by ne. cbn [typed obind insert].
        now apply op_assign2 with (o := o) (cx := cx).
      - rewrite eval_con, (eval_mention H). cbn [put_cx og_components].
        destruct (api_mention E fuel t cx) as [[r cx']| | |]; cbn [obind omap goes]; auto.
        cbn [eval_fields apply_con typed obind]. rewrite (build_response _ (Some r)). cbn [typed obind]. rewrite lookup_assign_other, H0 by ne. cbn [typed obind insert].
        now apply op_assign2 with (o := o) (cx := cx).
      - rewrite eval_user, Hs, Hx. cbn [obind eval_fields omap fst snd]. rewrite build_response. cbn [typed obind]. rewrite H0. cbn [typed obind insert].
        now apply op_assign with (o := o).
    Qed.

    (** *** Security *)
    Definition enc_sec (sec : ident) (m : bmap str (list str)) (cx : components) : list (ident * val) :=
      [(res, XOpg (put_cx d cx)); (sec, XRequirement m)].
    Lemma security_item_goes sec i i' m cx e (V : ident -> Prop) : res <> sec -> reads_security s i i' -> tracks (enc_sec sec m cx) e -> scope_of e = s ->
      goes (fun x => x = sec \/ x = res) V e (R [expand_security_item res sec i] e) (omap (enc_sec sec) (exec_security_item i' m cx)).
    Proof.
      intros Hne Hi Ht Hs. trk_in Ht. rewrite run_one. destruct Hi as [n roles|n v sc roles Hv Hsc]; destruct roles as [|r roles]; try exact I; cbn [expand_security_item exec_security_item map].
      - rewrite run_insert, eval_lit. cbn [obind]. replace (eval (EVec []) e) with (Done (XVec [], e)) by reflexivity. cbn [obind]. rewrite H0.
        cbn [typed obind insert as_vec option_map omap fst snd]. apply goes_sb; [apply sb_assign; auto|]. unfold enc_sec. trk.
      - rewrite run_insert. cbn [Expand.eval lit obind typed as_display]. rewrite lookup_var, Hs, Hv. cbn [typed obind]. rewrite H.
        replace (as_scheme v) with (Some sc) by now destruct Hsc. cbn [put_cx og_components].
        destruct (mention_security_scheme n sc cx) as [n' cx']. cbn [obind eval_all omap fst snd]. rewrite lookup_assign_other, H0 by ne.
        cbn [typed obind insert as_vec option_map]. apply goes_sb; [eapply sb_trans; apply sb_assign; auto|]. unfold enc_sec. trk.
    Qed.
    Lemma requirement_goes mk r r' o cx e (V : ident -> Prop) : mk <> [] -> V res -> V ctx -> (forall y, V y -> fresh mk y) ->
      Forall2 (reads_security s) r r' -> tracks (enc_op o cx) e -> scope_of e = s ->
      goes M V e (R (expand_security mk res ctx [r]) e) (omap enc_op (exec_requirement r' o cx)).
    Proof.
      intros Hmk Hvr Hvc Hf Hr Ht Hs. unfold exec_requirement. destruct r' as [|i' r']; [exact I|]. destruct r as [|i r]; [inversion Hr|].
      cbn [expand_security]. remember (i :: r) as l eqn:El. remember (i' :: r') as l' eqn:El'. clear El El' i r i' r'. set (sec := Id (u "security") mk).
      assert (Hr1 : res <> sec) by (apply fresh_ne, Hf; auto). assert (Hc1 : ctx <> sec) by (apply fresh_ne, Hf; auto).
      assert (Hnv : ~ V sec). { intros Hv. apply Hf in Hv. now apply (Hv []). }
      rewrite run_one, run_block. apply goes_leave.
      { intros y tr v Htr Hy. apply omap_done in Htr as (q & cq & _ & ->). cbn in Hy. destruct Hy as [[= <- <-]|[[= <- <-]|[]]]; auto. }
      rewrite run_all_cons, run_let, eval_val. cbn [obind].
      eapply (goes_let _ _ sec); [exact Hmk|exact Hnv|cbn; intros y [->| ->]; auto|]. rewrite run_all_app.
      set (e0 := (sec, XRequirement []) :: e). trk_in Ht.
      assert (H1 : goes (fun x => x = sec \/ x = res) (fun y => y = sec \/ V y) e0 (R (map (expand_security_item res sec) l) e0)
        (omap (enc_sec sec) (exec_list exec_security_item l' [] cx))).
      { apply (seq_goes E fuel reason imported s (reads_security s) (fun _ l => map (expand_security_item res sec) l) exec_security_item (enc_sec sec) _ _ [])
          with (m := 0 :: mk); auto.
        - intros y [->| ->]; auto.
        - intros y [->| ->]; auto.
        - intros y v [].
        - intros m' x a st' cx' e' _ Hm' Hf' Hx Ht' _ Hs'. cbn [map]. now apply security_item_goes.
        - discriminate.
        - intros y [->|Hy]; [apply fresh_self|]. now apply fresh_cons, Hf.
        - subst e0. unfold enc_sec. trk.
        - apply tracks_nil.
        - subst e0. rewrite !scope_cons; auto. }
      destruct (exec_list exec_security_item l' [] cx) as [[m cx2]| | |];
        [|cbn in H1 |- *; rewrite H1; reflexivity|cbn in H1 |- *; rewrite H1; reflexivity|exact I].
      unfold omap in H1 |- *. cbn [obind fst snd] in H1 |- *.
      eapply (goes_then _ _ _ _ _ _ _ _ _ (fun x Hx => _) (fun x Hx => _) (fun x Hx => _) (fun x Hx => _) (fun x Hx => _) H1).
      Unshelve. 2-6: cbn in *; intuition (subst; auto).
      intros e1 Ht1 Hs1 Hl1. cbn in Ht1. trk_in Ht1.
      assert (Hc0 : lookup ctx e1 = Some (XOperation o)).
      { rewrite Hl1; [|auto|intros [H'|H']; congruence]. subst e0. lk. }
      rewrite run_one, run_push, (eval_var H3). cbn [obind]. rewrite Hc0. cbn [typed obind push]. apply goes_sb; [apply sb_assign; auto|]. unfold enc_op. trk.
    Qed.
    Lemma security_goes mk l l' o cx e (V : ident -> Prop) : mk <> [] -> V res -> V ctx -> (forall y, V y -> fresh mk y) ->
      Forall2 (Forall2 (reads_security s)) l l' -> tracks (enc_op o cx) e -> scope_of e = s ->
      goes M V e (R (expand_security mk res ctx l) e) (omap enc_op (exec_list exec_requirement l' o cx)).
    Proof.
      intros Hmk Hvr Hvc Hf Hl Ht Hs.
      apply (seq_goes E fuel reason imported s (Forall2 (reads_security s)) (fun mk l => expand_security mk res ctx l) exec_requirement enc_op _ V []) with (m := mk);
        auto using tracks_nil.
      - now intros m' [|i r] l0.
      - intros y [->| ->]; auto.
      - intros y [->| ->]; auto.
      - intros y v [].
      - intros. now apply requirement_goes.
    Qed.

    (** *** Tags *)
    Lemma tags_goes l (V : ident -> Prop) : V res -> V ctx -> forall o cx e, tracks (enc_op o cx) e ->
      goes M V e (R (map (fun t => SPush ctx (Some Ftags) (lit t)) l) e) (omap enc_op (Done (push_tags l o, cx))).
    Proof.
      intros Hvr Hvc. induction l as [|t l IH]; intros o cx e Ht.
      - replace (push_tags [] o) with o; [now apply goes_done|]. destruct o; unfold push_tags; cbn. now rewrite app_nil_r.
      - cbn [map]. rewrite run_all_cons, run_push, eval_lit. cbn [obind]. pose proof Ht as Ht0. trk_in Ht0. rewrite H0. cbn [typed obind push].
        eapply goes_step; [apply sb_assign with (x := ctx); auto|].
        replace (push_tags (t :: l) o) with (push_tags l (push_tags [t] o)); [apply IH; unfold enc_op; trk|].
        destruct o; unfold push_tags; cbn. now rewrite <- app_assoc.
    Qed.
  End Ops.

  (** *** Callbacks *)
  Definition enc_cb (d : opg) (res cbo : ident) (l : list (path * path_value)) (cx : components) : list (ident * val) :=
    [(res, XOpg (put_cx d cx)); (cbo, XCallback (Callback l))].
  Definition cb_ok (x : xcallback_decl) (c : callback_decl) : Prop :=
    imported = true /\
    match x, c with
    | XcLit n _, CbLit n' _ => n = n'
    | XcIdent n _, CbIdent n' l' =>
        n = n' /\
        forall mk d res cbo (V : ident -> Prop) cx e, mk <> [] -> marked res -> marked cbo -> res <> cbo -> V res -> V cbo -> (forall y, V y -> fresh mk y) ->
          tracks (enc_cb d res cbo [] cx) e -> scope_of e = s ->
          goes (fun y => y = res \/ y = cbo) V e (R (expand_callback_paths seg mk res cbo x) e)
            (omap (enc_cb d res cbo) (exec_list (exec_path_push E fuel reason seg (exec_callback E fuel reason seg)) l' [] cx))
    | _, _ => False
    end.
  Section OpProps.
    Variable d : opg.
    Variable res ctx : ident.
    Hypothesis res_marked : marked res.
    Hypothesis ctx_marked : marked ctx.
    Hypothesis ctx_ne : res <> ctx.
    Notation M := (fun x => x = res \/ x = ctx).
    Notation enc_o := (enc_op d res ctx).

    Lemma callbacks_goes trailing l l' : Forall2 cb_ok l l' ->
      forall (V : ident -> Prop) mk o cx e, mk <> [] -> V res -> V ctx -> (forall y, V y -> fresh mk y) -> tracks (enc_o o cx) e -> scope_of e = s ->
      goes M V e (R (expand_callbacks (expand_callback_paths seg) trailing mk res ctx l) e)
        (omap enc_o (exec_callbacks (exec_callback E fuel reason seg) trailing l' o cx)).
    Proof.
      induction 1 as [|x c l l' Hx Hl IH]; intros V mk o cx e Hmk Hvr Hvc Hf Ht Hs; [now apply goes_done|].
      destruct Hx as [Hi Hx]. cbn [exec_callbacks expand_callbacks]. set (cbo := Id (u "callback_object") mk).
      assert (Hr1 : res <> cbo) by (apply fresh_ne, Hf; auto). assert (Hc1 : ctx <> cbo) by (apply fresh_ne, Hf; auto).
      assert (Hnv : ~ V cbo). { intros Hv. apply Hf in Hv. now apply (Hv []). }
      pose proof Ht as Ht0. trk_in Ht0.
      assert (Hcb : forall e, eval ECallbackObject e = Done (XCallback (Callback []), e)) by (intros e'; cbn; now rewrite Hi).
      destruct x as [n pa|n pa], c as [n' pa'|n' pa']; try contradiction.
      - subst n'. destruct Hl; [|exact I]. destruct trailing; [exact I|]. cbn [exec_callback obind exec_callbacks omap cd_name fst snd].
        rewrite run_all_cons, run_let, Hcb. cbn [obind]. eapply (goes_new _ _ cbo); [exact Hmk|exact Hnv|cbn; intros y [->| ->]; auto|].
        rewrite run_one, run_insert, eval_lit. cbn [obind]. rewrite (eval_var (lookup_cons_same _ _ _)). cbn [obind]. rewrite lookup_cons_other, H0 by ne.
        cbn [typed obind insert]. apply goes_sb; [apply sb_assign; auto|]. unfold enc_op. trk.
      - destruct Hx as [<- Hx]. cbn [app].
        rewrite run_all_cons, run_let, Hcb. cbn [obind]. eapply (goes_let _ _ cbo); [exact Hmk|exact Hnv|cbn; intros y [->| ->]; auto|].
        rewrite run_all_app. set (e0 := (cbo, XCallback (Callback [])) :: e).
        assert (Hf' : forall j y, (y = cbo \/ V y) -> fresh (j :: mk) y). { intros j y [->|Hy]; [apply fresh_self|]. now apply fresh_cons, Hf. }
        assert (H1 := Hx (0 :: mk) d res cbo (fun y => y = cbo \/ V y) cx e0 ltac:(discriminate) res_marked Hmk Hr1 (or_intror Hvr) (or_introl eq_refl) (Hf' 0)).
        assert (Ht1 : tracks (enc_cb d res cbo [] cx) e0). { subst e0. unfold enc_cb. trk. }
        assert (Hs1 : scope_of e0 = s). { subst e0. now rewrite scope_cons. }
        specialize (H1 Ht1 Hs1). cbn [exec_callback].
        destruct (exec_list (exec_path_push E fuel reason seg (exec_callback E fuel reason seg)) pa' [] cx) as [[ps cx2]| | |];
          [|cbn in H1 |- *; rewrite H1; destruct l', trailing; reflexivity|cbn in H1 |- *; rewrite H1; destruct l', trailing; reflexivity|destruct l', trailing; exact I].
        unfold omap in H1. cbn [obind fst snd cd_name] in H1 |- *.
        match goal with |- goes _ _ _ _ ?out => replace out with
          (omap enc_o (exec_callbacks (exec_callback E fuel reason seg) trailing l' (insert_callback n (Callback ps) o) cx2)) end.
        2: { now destruct l', trailing. }
        eapply (goes_then _ _ _ _ _ _ _ _ _ (fun x Hx => _) (fun x Hx => _) (fun x Hx => _) (fun x Hx => _) (fun x Hx => _) H1).
        Unshelve. 2-6: cbn in *; intuition (subst; auto).
        intros e1 Hte Hse Hl1. unfold enc_cb in Hte. trk_in Hte.
        assert (Hc0 : lookup ctx e1 = Some (XOperation o)). { rewrite Hl1; [|auto|intros [H'|H']; congruence]. subst e0. lk. }
        rewrite run_all_cons, run_insert, eval_lit. cbn [obind]. rewrite (eval_var H3). cbn [obind]. rewrite Hc0. cbn [typed obind insert].
        eapply goes_step; [apply sb_assign with (x := ctx); auto|].
        eapply goes_mono; [| |apply (IH (fun y => y = cbo \/ V y))]; auto; try discriminate.
        + unfold enc_op. trk.
        + rewrite scope_assign by auto. congruence.
    Qed.

    Lemma op_prop_goes mk p p' o cx e (V : ident -> Prop) : mk <> [] -> V res -> V ctx -> (forall y, V y -> fresh mk y) ->
      reads_op_prop s cb_ok p p' -> tracks (enc_o o cx) e -> scope_of e = s ->
      goes M V e (R (expand_op_prop (expand_callback_paths seg) mk res ctx p) e) (omap enc_o (exec_op_prop E fuel reason (exec_callback E fuel reason seg) p' o cx)).
    Proof.
      intros Hmk Hvr Hvc Hf Hp Ht Hs. pose proof Ht as Ht0. trk_in Ht0.
      destruct Hp as [x t Hx|x t Hx|x t Hx|x b Hx|l|l l' Hl|l l' t Hl|l l' Hl|b|c ds r r' Hr]; cbn [expand_op_prop exec_op_prop].
      - rewrite run_one, run_call, eval_user, Hs. cbn [obind omap fst snd]. rewrite H0. cbn [typed obind call].
        unfold refers in Hx. rewrite Hx. cbn [as_lit option_map typed obind]. now apply op_assign with (o := o).
      - rewrite run_one, run_call, eval_user, Hs. cbn [obind omap fst snd]. rewrite H0. cbn [typed obind call].
        unfold refers in Hx. rewrite Hx. cbn [as_lit option_map typed obind]. now apply op_assign with (o := o).
      - rewrite run_one, run_call, eval_user, Hs. cbn [obind omap fst snd]. rewrite H0. cbn [typed obind call].
        unfold refers in Hx. rewrite Hx. cbn [as_lit option_map typed obind]. now apply op_assign with (o := o).
      - rewrite run_one, run_call, eval_user, Hs. cbn [obind omap fst snd]. rewrite H0. cbn [typed obind call].
        unfold holds in Hx. rewrite Hx. cbn [as_bool option_map typed obind]; now apply op_assign with (o := o).
      - now apply tags_goes.
      - pose proof (params_goes E fuel reason imported s d res res_marked ctx (fun m => XOperation (op_set_parameters m o)) ctx_marked ctx_ne
          (fun m n a => eq_refl) V l l' Hvr Hvc Hl mk (op_parameters o) cx e Hmk Hf) as Hg.
        assert (Eo : op_set_parameters (op_parameters o) o = o) by now destruct o.
        assert (Htp : tracks (enc_params d res ctx (fun m => XOperation (op_set_parameters m o)) (op_parameters o) cx) e).
        { unfold enc_params. rewrite Eo. exact Ht. }
        specialize (Hg Htp Hs). destruct (exec_list (exec_param E fuel) l' (op_parameters o) cx) as [[m cx']| | |]; exact Hg.
      - now apply callbacks_goes.
      - now apply security_goes.
      - now apply body_goes.
      - now apply response_goes.
    Qed.
    Lemma operation_goes mk l l' o cx e (V : ident -> Prop) : mk <> [] -> V res -> V ctx -> (forall y, V y -> fresh mk y) ->
      Forall2 (reads_op_prop s cb_ok) l l' -> tracks (enc_o o cx) e -> scope_of e = s ->
      goes M V e (R (expand_operation (expand_callback_paths seg) mk res ctx l) e)
        (omap enc_o (exec_list (exec_op_prop E fuel reason (exec_callback E fuel reason seg)) l' o cx)).
    Proof.
      intros Hmk Hvr Hvc Hf Hl Ht Hs.
      apply (seq_goes E fuel reason imported s (reads_op_prop s cb_ok) (fun mk l => expand_operation (expand_callback_paths seg) mk res ctx l)
        (exec_op_prop E fuel reason (exec_callback E fuel reason seg)) enc_o _ V []) with (m := mk); auto using tracks_nil.
      - intros. cbn [expand_operation]. now rewrite app_nil_r.
      - intros y [->| ->]; auto.
      - intros y [->| ->]; auto.
      - intros y v [].
      - intros. cbn [expand_operation]. rewrite app_nil_r. apply op_prop_goes; auto; [discriminate|]. intros y Hy. apply fresh_cons; auto.
    Qed.
  End OpProps.

  (** ** Paths *)
  Section Paths.
    Variable d : opg.
    Variable res ctx : ident.
    Hypothesis res_marked : marked res.
    Hypothesis ctx_marked : marked ctx.
    Hypothesis ctx_ne : res <> ctx.
    Notation M := (fun x => x = res \/ x = ctx).
    Definition enc_pv (v : path_value) (cx : components) : list (ident * val) := [(res, XOpg (put_cx d cx)); (ctx, XPathValue v)].

    Lemma path_prop_goes mk p p' v cx e (V : ident -> Prop) : mk <> [] -> V res -> V ctx -> (forall y, V y -> fresh mk y) ->
      reads_path_prop s cb_ok p p' -> tracks (enc_pv v cx) e -> scope_of e = s ->
      goes M V e (R (expand_path_prop (expand_callback_paths seg) mk res ctx p) e)
        (omap enc_pv (exec_path_prop E fuel reason (exec_callback E fuel reason seg) p' v cx)).
    Proof.
      intros Hmk Hvr Hvc Hf Hp Ht Hs. pose proof Ht as Ht0. trk_in Ht0.
      destruct Hp as [t|t|l l' Hl|me l l' Hl]; cbn [expand_path_prop exec_path_prop].
      - rewrite run_one, run_set. unfold some. rewrite eval_con, eval_lit. cbn [obind apply_con typed]. rewrite H0.
        cbn [typed obind set_field as_option as_text option_map omap fst snd]. apply goes_sb; [apply sb_assign; auto|]. unfold enc_pv. trk.
      - rewrite run_one, run_set. unfold some. rewrite eval_con, eval_lit. cbn [obind apply_con typed]. rewrite H0.
        cbn [typed obind set_field as_option as_text option_map omap fst snd]. apply goes_sb; [apply sb_assign; auto|]. unfold enc_pv. trk.
      - pose proof (params_goes E fuel reason imported s d res res_marked ctx
          (fun m => XPathValue (Build_path_value_of (pv_summary v) (pv_description v) (pv_operations v) m)) ctx_marked ctx_ne
          (fun m n a => eq_refl) V l l' Hvr Hvc Hl mk (pv_parameters v) cx e Hmk Hf) as Hg.
        assert (Htp : tracks (enc_params d res ctx (fun m => XPathValue (Build_path_value_of (pv_summary v) (pv_description v) (pv_operations v) m)) (pv_parameters v) cx) e).
        { unfold enc_params. destruct v. exact Ht. }
        specialize (Hg Htp Hs). destruct (exec_list (exec_param E fuel) l' (pv_parameters v) cx) as [[m cx']| | |]; exact Hg.
      - set (op := Id (u "operation") mk).
        assert (Hr1 : res <> op) by (apply fresh_ne, Hf; auto). assert (Hc1 : ctx <> op) by (apply fresh_ne, Hf; auto).
        assert (Hnv : ~ V op). { intros Hv. apply Hf in Hv. now apply (Hv []). }
        cbn [app]. rewrite run_all_cons, run_let, eval_val. cbn [obind]. eapply (goes_let _ _ op); [exact Hmk|exact Hnv|cbn; intros y [->| ->]; auto|].
        rewrite run_all_app. set (e0 := (op, XOperation operation_default) :: e). unfold exec_operation.
        assert (H1 : goes (fun x => x = res \/ x = op) (fun y => y = op \/ V y) e0 (R (expand_operation (expand_callback_paths seg) (0 :: mk) res op l) e0)
          (omap (enc_op d res op) (exec_list (exec_op_prop E fuel reason (exec_callback E fuel reason seg)) l' operation_default cx))).
        { apply operation_goes; auto; try discriminate.
          - intros y [->|Hy]; [apply fresh_self|]. now apply fresh_cons, Hf.
          - subst e0. unfold enc_op. trk.
          - subst e0. now rewrite scope_cons. }
        destruct (exec_list (exec_op_prop E fuel reason (exec_callback E fuel reason seg)) l' operation_default cx) as [[o cx2]| | |];
          [|cbn in H1 |- *; rewrite H1; reflexivity|cbn in H1 |- *; rewrite H1; reflexivity|exact I].
        unfold omap in H1 |- *. cbn [obind fst snd] in H1 |- *.
        eapply (goes_then _ _ _ _ _ _ _ _ _ (fun x Hx => _) (fun x Hx => _) (fun x Hx => _) (fun x Hx => _) (fun x Hx => _) H1).
        Unshelve. 2-6: cbn in *; intuition (subst; auto).
        intros e1 Hte Hse Hl1. unfold enc_op in Hte. trk_in Hte.
        assert (Hc0 : lookup ctx e1 = Some (XPathValue v)). { rewrite Hl1; [|auto|intros [H'|H']; congruence]. subst e0. lk. }
        rewrite run_one, run_insert, eval_val. cbn [obind]. rewrite (eval_var H3). cbn [obind]. rewrite Hc0. cbn [typed obind insert].
        apply goes_sb; [apply sb_assign; auto|]. unfold enc_pv. trk.
    Qed.
    Lemma path_props_goes mk l l' v cx e (V : ident -> Prop) : mk <> [] -> V res -> V ctx -> (forall y, V y -> fresh mk y) ->
      Forall2 (reads_path_prop s cb_ok) l l' -> tracks (enc_pv v cx) e -> scope_of e = s ->
      goes M V e (R (expand_path_props (expand_callback_paths seg) mk res ctx l) e)
        (omap enc_pv (exec_list (exec_path_prop E fuel reason (exec_callback E fuel reason seg)) l' v cx)).
    Proof.
      intros Hmk Hvr Hvc Hf Hl Ht Hs.
      apply (seq_goes E fuel reason imported s (reads_path_prop s cb_ok) (fun mk l => expand_path_props (expand_callback_paths seg) mk res ctx l)
        (exec_path_prop E fuel reason (exec_callback E fuel reason seg)) enc_pv _ V []) with (m := mk); auto using tracks_nil.
      - intros. cbn [expand_path_props]. now rewrite app_nil_r.
      - intros y [->| ->]; auto.
      - intros y [->| ->]; auto.
      - intros y v0 [].
      - intros. cbn [expand_path_props]. rewrite app_nil_r. apply path_prop_goes; auto; [discriminate|]. intros y Hy. apply fresh_cons; auto.
    Qed.
  End Paths.

  (** [target] holds the list of paths: the document, or the object of a callback, which has the value [tv] *)
  Lemma path_goes mk d res target tv x x' cx e (V : ident -> Prop) (encT : path * path_value -> components -> list (ident * val)) :
    mk <> [] -> marked res -> marked target -> V res -> V target -> (forall y, V y -> fresh mk y) ->
    reads_path s cb_ok x x' -> lookup res e = Some (XOpg (put_cx d cx)) -> (target = res \/ target <> res /\ lookup target e = Some tv) -> scope_of e = s ->
    (forall cx pv e, lookup res e = Some (XOpg (put_cx d cx)) -> (target = res \/ target <> res /\ lookup target e = Some tv) ->
       exists w w', lookup target e = Some w /\ push w (Some Fpaths) (XPathEntry pv) = Some w' /\ tracks (encT pv cx) (assign target w' e)) ->
    (forall pv cx y v, In (y, v) (encT pv cx) -> V y) ->
    goes (fun y => y = res \/ y = target) V e (R [expand_path seg (expand_callback_paths seg) mk res target x] e)
      (omap encT (exec_path E fuel reason seg (exec_callback E fuel reason seg) x' cx)).
  Proof.
    intros Hmk Hrm Htm Hvr Hvt Hf Hx Hr Ht Hs Hpush HencV. destruct Hx as [url l l' Hl]. unfold expand_path, exec_path. cbn [xd_url xd_props pd_url pd_props].
    set (path := Id (u "path") mk). set (ctx := Id (u "context") mk).
    assert (Hn : forall y n, V y -> y <> Id n mk) by (intros; apply fresh_ne; auto).
    assert (Hnv : forall n, ~ V (Id n mk)) by (intros n Hv; now apply (Hn _ n Hv)).
    assert (Hr1 : res <> path) by (now apply Hn). assert (Hr2 : res <> ctx) by (now apply Hn).
    assert (Ht1 : target <> path) by (now apply Hn). assert (Ht2 : target <> ctx) by (now apply Hn). assert (Hpc : ctx <> path) by ne_names.
    assert (Hmp : marked path) by exact Hmk. assert (Hmc : marked ctx) by exact Hmk.
    rewrite run_one, run_block. apply goes_leave.
    { intros y tr v Htr Hy. apply omap_done in Htr as (q & cq & _ & ->). eapply HencV, Hy. }
    cbn [app]. rewrite run_all_cons, run_let, eval_val. cbn [obind].
    eapply (goes_let _ _ path); [exact Hmk|apply Hnv|cbn; intros y [->| ->]; auto|].
    rewrite run_all_cons, run_let, eval_val. cbn [obind].
    eapply (goes_let _ _ ctx); [exact Hmk|intros [H|H]; [now apply Hpc|now apply Hnv in H]|cbn; intros y [->|[->| ->]]; auto|].
    set (e0 := (ctx, XPathValue path_value_default) :: (path, XSegments []) :: e). set (V0 := fun y => y = ctx \/ y = path \/ V y).
    assert (Hf' : forall j y, V0 y -> fresh (j :: mk) y). { intros j y [->|[->|Hy]]; try apply fresh_self. now apply fresh_cons, Hf. }
    assert (Hs0 : scope_of e0 = s). { subst e0. rewrite !scope_cons; auto. }
    rewrite run_all_app.
    assert (H1 := url_goes E fuel reason imported seg s d res Hrm ctx (fun m => XPathValue (Build_path_value_of None None [] m)) Hmc Hr2 (fun m n a => eq_refl)
      path Hmp (conj Hr1 Hpc) url (0 :: mk) cx e0 V0 ltac:(discriminate) ltac:(unfold V0; auto) ltac:(unfold V0; auto) ltac:(unfold V0; auto) (Hf' 0)).
    assert (Htr : tracks (enc_url d res ctx (fun m => XPathValue (Build_path_value_of None None [] m)) path ([], []) cx) e0).
    { subst e0. unfold enc_url. cbn [fst snd]. trk. }
    specialize (H1 Htr Hs0). clear Htr.
    destruct (exec_url E fuel seg url cx) as [[[p params] cx1]| | |];
      [|cbn in H1 |- *; rewrite H1; reflexivity|cbn in H1 |- *; rewrite H1; reflexivity|exact I].
    unfold omap in H1. cbn [obind fst snd] in H1 |- *.
    eapply (goes_then _ _ _ _ _ _ _ _ _ (fun x Hx => _) (fun x Hx => _) (fun x Hx => _) (fun x Hx => _) (fun x Hx => _) H1).
    Unshelve. 2-6: cbn in *; unfold V0 in *; intuition (subst; auto).
    intros e1 Hte Hse Hl1. unfold enc_url in Hte. cbn [fst snd] in Hte. trk_in Hte.
    rewrite run_all_app.
    assert (H3 : goes (fun y => y = res \/ y = ctx) V0 e1 (R (expand_path_props (expand_callback_paths seg) (1 :: mk) res ctx l) e1)
      (omap (enc_pv d res ctx) (exec_list (exec_path_prop E fuel reason (exec_callback E fuel reason seg)) l' (Build_path_value_of None None [] params) cx1))).
    { apply path_props_goes; auto; try discriminate; unfold V0; auto. unfold enc_pv. trk. congruence. }
    destruct (exec_list (exec_path_prop E fuel reason (exec_callback E fuel reason seg)) l' (Build_path_value_of None None [] params) cx1) as [[v cx2]| | |];
      [|cbn in H3 |- *; rewrite H3; reflexivity|cbn in H3 |- *; rewrite H3; reflexivity|exact I].
    unfold omap in H3 |- *. cbn [obind fst snd] in H3 |- *.
    eapply (goes_then _ _ _ _ _ _ _ _ _ (fun x Hx => _) (fun x Hx => _) (fun x Hx => _) (fun x Hx => _) (fun x Hx => _) H3).
    Unshelve. 2-6: cbn in *; unfold V0 in *; intuition (subst; auto).
    intros e2 Hte2 Hse2 Hl2. unfold enc_pv in Hte2. trk_in Hte2.
    assert (Hp2 : lookup path e2 = Some (XSegments p)).
    { rewrite Hl2; [auto|unfold V0; auto|intros [H'|H']; congruence]. }
    assert (Htg : target = res \/ target <> res /\ lookup target e2 = Some tv).
    { destruct Ht as [->|[Hne Ht]]; [now left|]. right. split; auto.
      rewrite Hl2; [|unfold V0; auto|intros [H'|H']; congruence]. rewrite Hl1; [|unfold V0; auto|intros [H'|[H'|H']]; congruence]. subst e0. lk. }
    destruct (Hpush cx2 (p, v) e2 H4 Htg) as (w & w' & Ew & Epush & Htrk).
    rewrite run_one, run_push. cbn [Expand.eval]. rewrite Hp2. cbn [typed obind apply_con]. rewrite H5. cbn [typed obind]. rewrite Ew. cbn [typed obind]. rewrite Epush.
    cbn [typed obind]. apply goes_sb; [apply sb_assign; auto|exact Htrk].
  Qed.

  (** the paths of a callback *)
  Lemma cb_paths_goes mk d res cbo (V : ident -> Prop) ps ps' l cx e : mk <> [] -> marked res -> marked cbo -> res <> cbo -> V res -> V cbo ->
    (forall y, V y -> fresh mk y) -> Forall2 (reads_path s cb_ok) ps ps' -> tracks (enc_cb d res cbo l cx) e -> scope_of e = s ->
    goes (fun y => y = res \/ y = cbo) V e (R (map (expand_path seg (expand_callback_paths seg) mk res cbo) ps) e)
      (omap (enc_cb d res cbo) (exec_list (exec_path_push E fuel reason seg (exec_callback E fuel reason seg)) ps' l cx)).
  Proof.
    intros Hmk Hrm Hcm Hne Hvr Hvc Hf Hps. revert l cx e. induction Hps as [|x x' ps ps' Hx Hps IH]; intros l cx e Ht Hs; [now apply goes_done|].
    cbn [map]. rewrite run_all_cons. cbn [exec_list]. unfold exec_path_push at 1. pose proof Ht as Ht0. unfold enc_cb in Ht0. trk_in Ht0.
    assert (H1 := path_goes mk d res cbo (XCallback (Callback l)) x x' cx e V (fun pv cx => enc_cb d res cbo (l ++ [pv]) cx) Hmk Hrm Hcm Hvr Hvc Hf Hx H
      (or_intror (conj (not_eq_sym Hne) H0)) Hs). rewrite run_one in H1.
    match type of H1 with ?A -> ?B -> _ => assert (HA : A); [|assert (HB : B); [|specialize (H1 HA HB); clear HA HB]] end.
    { intros cx' pv e' Hr' [->|[_ Hc']]; [congruence|]. eexists _, _. split; [exact Hc'|]. split; [reflexivity|]. unfold enc_cb. cbn [cb_paths]. trk. }
    { intros pv cx' y v [[= <- <-]|[[= <- <-]|[]]]; auto. }
    destruct (exec_path E fuel reason seg (exec_callback E fuel reason seg) x' cx) as [[pv cx1]| | |];
      [|cbn in H1 |- *; rewrite H1; reflexivity|cbn in H1 |- *; rewrite H1; reflexivity|exact I].
    unfold omap in H1. cbn [obind fst snd] in H1 |- *.
    eapply (goes_then _ _ _ _ _ _ _ _ _ (fun x Hx => Hx) (fun x Hx => Hx) (fun x Hx => _) (fun x Hx => _) (fun x Hx => _) H1).
    Unshelve. 2-4: cbn in *; intuition (subst; auto).
    intros e1 Hte Hse Hl1. apply IH; auto. congruence.
  Qed.

  Lemma Forall2_in {A B} (P Q : A -> B -> Prop) l l' : Forall2 P l l' -> (forall x y, In x l -> In y l' -> P x y -> Q x y) -> Forall2 Q l l'.
  Proof.
    induction 1 as [|x y l l' Hx Hl IH]; intros H; constructor.
    - apply H; auto; now left.
    - apply IH. intros. apply H; auto; now right.
  Qed.
  Lemma reads_path_mono (P Q : xcallback_decl -> callback_decl -> Prop) x x' : reads_path s P x x' ->
    (forall m ops t cs m' ops' t' cs' c c', In (XvMethod m ops) (xd_props x) -> In (XoCallbacks cs t) ops -> In c cs ->
       In (PvMethod m' ops') (pd_props x') -> In (OpCallbacks cs' t') ops' -> In c' cs' -> P c c' -> Q c c') ->
    reads_path s Q x x'.
  Proof.
    intros [url l l' Hl] H. constructor. cbn in H. apply (Forall2_in _ _ _ _ Hl). intros p p' Hp Hp' Hr. destruct Hr as [t|t|ps ps' Hps|m ops ops' Hops]; constructor; auto.
    apply (Forall2_in _ _ _ _ Hops). intros o o' Ho Ho' Hr. destruct Hr; constructor; auto.
    apply (Forall2_in _ _ _ _ H0). intros c c' Hc Hc' Hr. eapply H; eauto.
  Qed.
  Lemma callback_ok c : forall x, imported = true -> reads_callback s x c -> cb_ok x c.
  Proof.
    induction c as [c IH] using callback_decl_ind'. intros x Hi Hx. destruct Hx as [n l l'|n l l' Hl]; split; auto. split; auto.
    intros mk d res cbo V cx e Hmk Hrm Hcm Hne Hvr Hvc Hf Ht Hs. cbn [expand_callback_paths]. apply cb_paths_goes; auto.
    apply (Forall2_in _ _ _ _ Hl). intros p p' Hp Hp' Hr. apply (reads_path_mono _ _ _ _ Hr). intros. eapply IH; eauto.
  Qed.

  (** the paths of the document *)
  Definition enc_doc (d : opg) (res : ident) (l : list (path * path_value)) (cx : components) : list (ident * val) :=
    [(res, XOpg (put_cx (put_paths d l) cx))].
  Lemma doc_paths_goes mk d res (V : ident -> Prop) ps ps' l cx e : mk <> [] -> marked res -> V res ->
    (forall y, V y -> fresh mk y) -> Forall2 (reads_path s cb_ok) ps ps' -> tracks (enc_doc d res l cx) e -> scope_of e = s ->
    goes (fun y => y = res) V e (R (map (expand_path seg (expand_callback_paths seg) mk res res) ps) e)
      (omap (enc_doc d res) (exec_list (exec_path_push E fuel reason seg (exec_callback E fuel reason seg)) ps' l cx)).
  Proof.
    intros Hmk Hrm Hvr Hf Hps. revert l cx e. induction Hps as [|x x' ps ps' Hx Hps IH]; intros l cx e Ht Hs; [now apply goes_done|].
    cbn [map]. rewrite run_all_cons. cbn [exec_list]. unfold exec_path_push at 1. pose proof Ht as Ht0. unfold enc_doc in Ht0. trk_in Ht0.
    assert (H1 := path_goes mk (put_paths d l) res res (XMissing) x x' cx e V (fun pv cx => enc_doc d res (l ++ [pv]) cx) Hmk Hrm Hrm Hvr Hvr Hf Hx H
      (or_introl eq_refl) Hs). rewrite run_one in H1.
    match type of H1 with ?A -> ?B -> _ => assert (HA : A); [|assert (HB : B); [|specialize (H1 HA HB); clear HA HB]] end.
    { intros cx' pv e' Hr' _. eexists _, _. split; [exact Hr'|]. split; [reflexivity|]. unfold enc_doc. cbn. trk. }
    { intros pv cx' y v [[= <- <-]|[]]; auto. }
    destruct (exec_path E fuel reason seg (exec_callback E fuel reason seg) x' cx) as [[pv cx1]| | |];
      [|cbn in H1 |- *; rewrite H1; reflexivity|cbn in H1 |- *; rewrite H1; reflexivity|exact I].
    unfold omap in H1. cbn [obind fst snd] in H1 |- *.
    eapply (goes_then _ _ _ _ _ _ _ _ _ (fun x Hx => _) (fun x Hx => Hx) (fun x Hx => _) (fun x Hx => _) (fun x Hx => _) H1).
    Unshelve. 2-5: cbn in *; intuition (subst; auto).
    intros e1 Hte Hse Hl1. apply IH; auto. congruence.
  Qed.
End Templates.
