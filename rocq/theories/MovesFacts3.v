(** Moves in the code of describe_api! (C87): operations, paths and callbacks. *)
From Coq Require Import List NArith Bool PeanoNat Lia.
From Verif Require Import Str Api Expand ExpandFacts ExpandFacts2 OrderFacts2 Moves MovesSpec MovesFacts MovesFacts2.
Import ListNotations.

Section Templates.
  Variable uses : uexpr -> list use.
  Variable alone : uexpr -> option str.
  Variable seg : list tree -> option segment.
  Notation check := (check uses alone).
  Notation check_stmt := (check_stmt uses alone).
  Notation C := (check_all check_stmt).
  Notation by_value := (by_value uses alone).
  Notation by_reference := (by_reference uses alone).

  Lemma response_flows (K : ident -> Prop) res ctx code d s st : K res -> K ctx -> keeps K st ->
    flows K st (C (expand_response res ctx code d s) st) match s with XrRaw e => by_value e | _ => [] end.
  Proof.
    intros Hr Hc Hk. unfold expand_response. rewrite C_one, s_insert_val, c_struct, c_field.
    assert (E : check (EUnwrapOrElse (EExtract (option_map lit d)) (EUnwrapOrElse (EReason code) (lit []))) st = Some st).
    { destruct d; cbn; now rewrite !join_self. }
    rewrite E. cbn [obnd]. rewrite c_field1. apply flows_seq1; [|intros; now apply flows_borrow].
    destruct s; unfold none, some; rewrite ?c_val, ?c_con, ?c_mention, ?c_user; [now apply flows_same|now apply flows_borrow|now apply flows_borrow|now apply flows_value].
  Qed.
  Lemma security_item_flows (K : ident -> Prop) res sec i st : K res -> K sec -> keeps K st ->
    flows K st (check_stmt (expand_security_item res sec i) st) (security_uses i).
  Proof.
    intros Hr Hs Hk. destruct i as [n roles|n roles]; cbn [expand_security_item security_uses].
    - rewrite s_insert_lit, c_roles. cbn [obnd]. now apply flows_borrow.
    - rewrite s_insert_scheme. apply flows_seq1.
      + apply flows_seq1; [now apply (flows_use K (Borrow n))|]. intros. now apply flows_borrow.
      + intros st1 Hk1. rewrite c_roles. now apply flows_borrow.
  Qed.
  Lemma security_flows (K : ident -> Prop) res ctx l mk st : mk <> [] -> K res -> K ctx -> (forall y, K y -> fresh mk y) -> keeps K st ->
    flows K st (C (expand_security mk res ctx l) st) (flat_map (flat_map security_uses) l).
  Proof.
    intros Hm Hr Hc. revert mk st Hm. induction l as [|r l IH]; intros mk st Hm Hf Hk; [now apply flows_same|]. cbn [flat_map].
    assert (G : forall st, keeps K st -> flows K st (C (expand_security (1 :: mk) res ctx l) st) (flat_map (flat_map security_uses) l)).
    { intros. apply IH; auto; [discriminate|intros; now apply fresh_cons, Hf]. }
    cbn [expand_security]. destruct r as [|i r]; [rewrite C_cons; now apply G|]. rewrite C_cons. apply flows_seq; [|exact G].
    remember (i :: r) as l' eqn:El. clear El i r. set (sec := Id (u "security") mk). assert (Hn : ~ K sec) by (intros H; apply Hf in H; now apply (H [])).
    apply flows_block. rewrite C_cons. apply (flows_let0 _ _ K K (fun y => K y \/ y = sec)); [exact Hm|exact Hn|auto|auto|now apply flows_same|].
    intros st1 Hk1. rewrite C_app. rewrite <- (app_nil_r (flat_map _ _)). apply (flows_then K (fun y => K y \/ y = sec)); [auto| |].
    - apply flows_each; auto. intros. apply security_item_flows; auto.
    - intros st2 Hk2. rewrite C_one, s_push, c_var. apply insert_flows; [exact Hm|exact Hn|apply Hk2; auto|exact Hc|]. eapply keeps_weaken; [|exact Hk2]. cbn; auto.
  Qed.

  (** ** Paths *)
  Lemma url_param_flows (K : ident -> Prop) res ctx name t st : K res -> K ctx -> marked name -> ~ K name -> alive name st -> keeps K st ->
    flows K st (check (insert_url_param res ctx name t) st) [].
  Proof.
    intros Hr Hc Hm Hn Ha Hk. unfold insert_url_param. rewrite c_block, C_one, s_insert_var.
    assert (Hk' : keeps (fun y => K y \/ y = name) st) by (intros y [H| ->]; auto).
    assert (G : flows K st (obnd (obnd (borrow name st) (fun st1 => obnd (check (parameter_literal InPath true (EMention res t)) st1) (borrow ctx)))
                             (check (ECon CPathElementParameter (EVar name)))) []).
    { apply (flows_then0 K (fun y => K y \/ y = name)); [auto| |].
      - apply flows_seq0; [now apply flows_borrow; auto|]. intros. apply flows_seq0; [now apply parameter_literal_flows; auto|]. intros. now apply flows_borrow; auto.
      - intros st1 Hk1. rewrite c_con, c_var. apply flows_take; auto; [apply Hk1; auto|]. eapply keeps_weaken; [|exact Hk1]. cbn; auto. }
    apply flows_leave in G. destruct (obnd (borrow name st) _); [|exact G]. cbn [obnd] in G |- *. exact G.
  Qed.
  Lemma segment_flows (K : ident -> Prop) path res ctx s mk st : mk <> [] -> K path -> K res -> K ctx -> (forall y, K y -> fresh mk y) -> keeps K st ->
    flows K st (check_stmt (expand_segment mk path res ctx s) st) [].
  Proof.
    intros Hm Hp Hr Hc Hf Hk. assert (Hn : forall n, ~ K (Id n mk)) by (intros n H; apply Hf in H; now apply (H [])).
    assert (B : forall x t, flows K st (check x st) [] ->
      flows K st (check (EBlock [SLet (Id (u "name") mk) x] (insert_url_param res ctx (Id (u "name") mk) t)) st) []).
    { intros x t Hx. rewrite c_block.
      assert (G : flows K st (obnd (C [SLet (Id (u "name") mk) x] st) (check (insert_url_param res ctx (Id (u "name") mk) t))) []).
      { rewrite C_one. apply (flows_let0 _ _ K K (fun y => K y \/ y = Id (u "name") mk)); [exact Hm|apply Hn|auto|auto|exact Hx|].
        intros st1 Hk1. apply url_param_flows; auto; [apply Hk1; auto|]. eapply keeps_weaken; [|exact Hk1]. cbn; auto. }
      apply flows_leave in G. destruct (C [_] st); [|exact G]. cbn [obnd] in G |- *. exact G. }
    destruct s as [l|txt t|n t]; cbn [expand_segment]; rewrite s_push; (apply flows_seq0; [|intros; now apply flows_borrow]).
    - rewrite c_con, c_lit. now apply flows_same.
    - apply B. clear B. set (name := Id (u "name") mk). set (full := Id (u "full_name") mk). rewrite c_block.
      assert (G : flows K st (obnd (C [SLet full (EVal (XLit txt)); SLet name (EAfterColon (EVar full))] st)
                                (check (EConcat (EToLowercase (EFirst (EVar name))) (ERest (EVar name))))) []).
      { rewrite C_cons.
        replace (obnd (obnd (check_stmt (SLet full (EVal (XLit txt))) st) (C [SLet name (EAfterColon (EVar full))])) (check (EConcat (EToLowercase (EFirst (EVar name))) (ERest (EVar name)))))
          with (obnd (check_stmt (SLet full (EVal (XLit txt))) st)
                  (fun st1 => obnd (C [SLet name (EAfterColon (EVar full))] st1) (check (EConcat (EToLowercase (EFirst (EVar name))) (ERest (EVar name)))))) by reflexivity.
        apply (flows_let0 _ _ K K (fun y => K y \/ y = full)); [exact Hm|apply Hn|auto|auto|now apply flows_same|]. intros st1 Hk1. rewrite C_one.
        apply (flows_let0 _ _ K (fun y => K y \/ y = full) (fun y => K y \/ y = name)); [exact Hm|apply Hn|auto|intros y [H|H]; auto| |].
        - change (check (EAfterColon (EVar full)) st1) with (borrow full st1). apply flows_borrow; auto.
        - intros st2 Hk2. change (check (EConcat (EToLowercase (EFirst (EVar name))) (ERest (EVar name))) st2) with (obnd (borrow name st2) (borrow name)).
          apply (flows_weaken (fun y => K y \/ y = name)); [auto|]. apply flows_seq0; [apply flows_borrow; auto|]. intros. apply flows_borrow; auto. }
      apply flows_leave in G. destruct (C [_; _] st); [|exact G]. cbn [obnd] in G |- *. exact G.
    - apply B. now apply flows_same.
  Qed.
  Lemma url_flows (K : ident -> Prop) path res ctx url mk st : mk <> [] -> K path -> K res -> K ctx -> (forall y, K y -> fresh mk y) -> keeps K st ->
    flows K st (C (expand_url seg mk path res ctx url) st) [].
  Proof.
    intros Hm Hp Hr Hc Hf Hk. unfold expand_url. destruct (munch url []) as [l|]; [|now apply flows_same].
    revert mk st Hm Hf Hk. induction l as [|g l IH]; intros mk st Hm Hf Hk; [now apply flows_same|]. cbn [expand_groups]. rewrite C_cons. apply flows_seq0.
    - destruct (group_text g) as [ts|]; [|now apply flows_same]. destruct (seg ts) as [s|]; [|now apply flows_same].
      apply segment_flows; auto; [discriminate|]. intros. now apply fresh_cons, Hf.
    - intros. apply IH; auto; [discriminate|]. intros. now apply fresh_cons, Hf.
  Qed.

  Section Nested.
    Variable cp : mark -> ident -> ident -> xcallback_decl -> list stmt.
    Variable cu : xcallback_decl -> list use.
    Definition good (c : xcallback_decl) : Prop := forall (K : ident -> Prop) mk res obj st, mk <> [] -> K res -> K obj -> (forall y, K y -> fresh mk y) ->
      keeps K st -> flows K st (C (cp mk res obj c) st) (cu c).
    Lemma callbacks_flows (K : ident -> Prop) res ctx l t mk st : Forall good l -> mk <> [] -> K res -> K ctx -> (forall y, K y -> fresh mk y) -> keeps K st ->
      flows K st (C (expand_callbacks cp t mk res ctx l) st) (callbacks_uses cu l).
    Proof.
      intros Hg Hm Hr Hc. revert mk st Hm. induction Hg as [|c l Hgc Hg IH]; intros mk st Hm Hf Hk; [now apply flows_same|].
      set (obj := Id (u "callback_object") mk). assert (Hn : ~ K obj) by (intros H; apply Hf in H; now apply (H [])).
      assert (Hend : forall n st1, keeps (fun y => K y \/ y = obj) st1 -> flows K st1 (check_stmt (SInsert ctx (Some Fcallbacks) (lit n) (EVar obj)) st1) []).
      { intros n st1 Hk1. rewrite s_insert_lit, c_var. apply insert_flows; auto; [apply Hk1; auto|]. eapply keeps_weaken; [|exact Hk1]. cbn; auto. }
      cbn [expand_callbacks callbacks_uses]. destruct c as [n ps|n ps].
      - destruct l; [destruct t; [now apply flows_same|]|now apply flows_same]. fold obj. rewrite C_cons.
        apply (flows_let0 _ _ K K (fun y => K y \/ y = obj)); [exact Hm|exact Hn|auto|auto|now apply flows_same|]. intros st1 Hk1. rewrite C_one. now apply Hend.
      - fold obj. cbn [app]. rewrite C_cons. apply (flows_let0 _ _ K K (fun y => K y \/ y = obj)); [exact Hm|exact Hn|auto|auto|now apply flows_same|].
        intros st1 Hk1. rewrite C_app. apply (flows_then K (fun y => K y \/ y = obj)); [auto| |].
        + apply Hgc; auto; [discriminate|]. intros y [Hy| ->]; [now apply fresh_cons, Hf|apply fresh_self].
        + intros st2 Hk2. rewrite C_cons. apply flows_seq0; [now apply Hend|]. intros st3 Hk3. apply IH; auto; [discriminate|]. intros. now apply fresh_cons, Hf.
    Qed.
    Lemma op_prop_flows (K : ident -> Prop) res ctx p mk st : all_op good p -> mk <> [] -> K res -> K ctx -> (forall y, K y -> fresh mk y) -> keeps K st ->
      flows K st (C (expand_op_prop cp mk res ctx p) st) (op_prop_uses uses alone cu p).
    Proof.
      intros Hg Hm Hr Hc Hf Hk. destruct p; cbn [expand_op_prop op_prop_uses].
      1-4: rewrite C_one, s_call, c_user; apply flows_seq1; [now apply flows_value|]; intros; now apply flows_borrow.
      - eapply flows_eq; [apply (flows_each _ _ K _ (fun _ => [])); [|exact Hk]|apply flat_map_nil]. intros. rewrite s_push, c_lit. now apply flows_borrow.
      - now apply params_flows.
      - now apply callbacks_flows.
      - now apply security_flows.
      - now apply body_flows.
      - eapply flows_eq; [now apply response_flows|]. now destruct s.
    Qed.
    Lemma operation_flows (K : ident -> Prop) res ctx l mk st : Forall (all_op good) l -> mk <> [] -> K res -> K ctx -> (forall y, K y -> fresh mk y) -> keeps K st ->
      flows K st (C (expand_operation cp mk res ctx l) st) (flat_map (op_prop_uses uses alone cu) l).
    Proof.
      intros Hg Hm Hr Hc. revert mk st Hm. induction Hg as [|p l Hp Hg IH]; intros mk st Hm Hf Hk; [now apply flows_same|]. cbn [expand_operation flat_map].
      rewrite C_app. apply flows_seq; [apply op_prop_flows|intros; apply IH]; auto; try discriminate; intros; now apply fresh_cons, Hf.
    Qed.
    Lemma path_prop_flows (K : ident -> Prop) res ctx p mk st : all_path good p -> mk <> [] -> K res -> K ctx -> (forall y, K y -> fresh mk y) -> keeps K st ->
      flows K st (C (expand_path_prop cp mk res ctx p) st) (path_prop_uses uses alone cu p).
    Proof.
      intros Hg Hm Hr Hc Hf Hk. destruct p as [s|s|l|me l]; cbn [expand_path_prop path_prop_uses].
      1-2: rewrite C_one, s_set; unfold some; rewrite c_con, c_lit; now apply flows_borrow.
      - now apply params_flows.
      - set (op := Id (u "operation") mk). assert (Hn : ~ K op) by (intros H; apply Hf in H; now apply (H [])). cbn [app]. rewrite C_cons.
        apply (flows_let0 _ _ K K (fun y => K y \/ y = op)); [exact Hm|exact Hn|auto|auto|now apply flows_same|]. intros st1 Hk1. rewrite C_app.
        rewrite <- (app_nil_r (flat_map _ _)). apply (flows_then K (fun y => K y \/ y = op)); [auto| |].
        + apply operation_flows; auto; [discriminate|]. intros y [Hy| ->]; [now apply fresh_cons, Hf|apply fresh_self].
        + intros st2 Hk2. rewrite C_one, s_insert_val, c_var. apply insert_flows; auto; [apply Hk2; auto|]. eapply keeps_weaken; [|exact Hk2]. cbn; auto.
    Qed.
    Lemma path_props_flows (K : ident -> Prop) res ctx l mk st : Forall (all_path good) l -> mk <> [] -> K res -> K ctx -> (forall y, K y -> fresh mk y) -> keeps K st ->
      flows K st (C (expand_path_props cp mk res ctx l) st) (flat_map (path_prop_uses uses alone cu) l).
    Proof.
      intros Hg Hm Hr Hc. revert mk st Hm. induction Hg as [|p l Hp Hg IH]; intros mk st Hm Hf Hk; [now apply flows_same|]. cbn [expand_path_props flat_map].
      rewrite C_app. apply flows_seq; [apply path_prop_flows|intros; apply IH]; auto; try discriminate; intros; now apply fresh_cons, Hf.
    Qed.
    Lemma path_flows (K : ident -> Prop) res target d mk st : all_decl good d -> mk <> [] -> K res -> K target -> (forall y, K y -> fresh mk y) -> keeps K st ->
      flows K st (check_stmt (expand_path seg cp mk res target d) st) (path_uses uses alone cu d).
    Proof.
      intros Hg Hm Hr Ht Hf Hk. unfold expand_path, path_uses. set (p := Id (u "path") mk). set (c := Id (u "context") mk).
      assert (Hn : forall n, ~ K (Id n mk)) by (intros n H; apply Hf in H; now apply (H [])). assert (Hpc : p <> c) by ne.
      apply flows_block. cbn [app]. rewrite C_cons. apply (flows_let0 _ _ K K (fun y => K y \/ y = p)); [exact Hm|apply Hn|auto|auto|now apply flows_same|].
      intros st1 Hk1. rewrite C_cons.
      apply (flows_let0 _ _ K (fun y => K y \/ y = p) (fun y => (K y \/ y = p) \/ y = c)); [exact Hm|apply Hn|auto|auto|now apply flows_same|].
      intros st2 Hk2. rewrite C_app. set (K' := fun y => (K y \/ y = p) \/ y = c).
      assert (Hf' : forall j y, K' y -> fresh (j :: mk) y) by (intros j y [[Hy| ->]| ->]; [now apply fresh_cons, Hf|apply fresh_self|apply fresh_self]).
      assert (Kp : K' p) by (unfold K'; auto). assert (Kc : K' c) by (unfold K'; auto). assert (Kr : K' res) by (unfold K'; auto).
      apply (flows_then0 K K'); [unfold K'; auto|apply url_flows; auto; discriminate|]. intros st3 Hk3. rewrite C_app.
      rewrite <- (app_nil_r (flat_map _ _)). apply (flows_then K K'); [unfold K'; auto|apply path_props_flows; auto; discriminate|].
      intros st4 Hk4. rewrite C_one, s_push, c_pair, c_con, !c_var. apply flows_seq0; [|intros; now apply flows_borrow].
      apply (flows_then0 K (fun y => K y \/ y = c)); [auto| |].
      - apply flows_take; [exact Hm|now apply Hk4| |]; [intros [H|H]; [now apply (Hn (u "path"))|now apply Hpc]|].
        eapply keeps_weaken; [|exact Hk4]. unfold K'. cbn. intros y [H|H]; auto.
      - intros st5 Hk5. apply flows_take; [exact Hm|apply Hk5; auto|apply Hn|]. eapply keeps_weaken; [|exact Hk5]. cbn; auto.
    Qed.
  End Nested.
  Lemma callbacks_good c : good (expand_callback_paths seg) (callback_uses uses alone) c.
  Proof.
    induction c as [n ps IH|n ps IH] using xcallback_ind'; intros K mk res obj st Hm Hr Ho Hf Hk; cbn [expand_callback_paths callback_uses]; [now apply flows_same|].
    apply flows_each; auto. intros d st' Hd Hk'. rewrite Forall_forall in IH. apply path_flows; auto.
  Qed.
End Templates.
