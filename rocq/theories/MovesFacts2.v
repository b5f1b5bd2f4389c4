(** Moves in the code of describe_api! (C87): the templates. *)
From Coq Require Import List NArith Bool PeanoNat Lia.
From Verif Require Import Str Api Expand ExpandFacts ExpandFacts2 OrderFacts2 Moves MovesSpec MovesFacts.
Import ListNotations.

Section Templates.
  Variable uses : uexpr -> list use.
  Variable alone : uexpr -> option str.
  Notation check := (check uses alone).
  Notation check_stmt := (check_stmt uses alone).
  Notation C := (check_all check_stmt).
  Notation by_value := (by_value uses alone).
  Notation by_reference := (by_reference uses alone).

  (** the clauses of [check] and [check_stmt] *)
  Lemma C_cons s l st : C (s :: l) st = obnd (check_stmt s st) (C l).
  Proof. reflexivity. Qed.
  Lemma C_nil st : C [] st = Some st.
  Proof. reflexivity. Qed.
  Lemma C_app l1 l2 st : C (l1 ++ l2) st = obnd (C l1 st) (C l2).
  Proof. revert st. induction l1 as [|s l1 IH]; intros st; [reflexivity|]. cbn [app]. rewrite !C_cons. destruct (check_stmt s st); [apply IH|reflexivity]. Qed.
  Lemma C_one s st : C [s] st = check_stmt s st.
  Proof. rewrite C_cons. now destruct (check_stmt s st). Qed.
  Lemma s_let i x st : check_stmt (SLet i x) st = obnd (check x st) (fun st1 => Some ({| sl_id := i; sl_live := true; sl_copy := false |} :: st1)).
  Proof. reflexivity. Qed.
  Lemma s_assign i x st : check_stmt (SAssign i x) st = obnd (check x st) (assign_value i).
  Proof. reflexivity. Qed.
  Lemma s_set i f x st : check_stmt (SSet i f x) st = obnd (check x st) (borrow i).
  Proof. reflexivity. Qed.
  Lemma s_push i f x st : check_stmt (SPush i f x) st = obnd (check x st) (borrow i).
  Proof. reflexivity. Qed.
  Lemma s_call i m x st : check_stmt (SCall i m x) st = obnd (check x st) (borrow i).
  Proof. reflexivity. Qed.
  Lemma s_insert_var i f n x st : check_stmt (SInsert i f (EVar n) x) st = obnd (borrow n st) (fun st1 => obnd (check x st1) (borrow i)).
  Proof. reflexivity. Qed.
  Lemma s_insert_lit i f n x st : check_stmt (SInsert i f (lit n) x) st = obnd (check x st) (borrow i).
  Proof. reflexivity. Qed.
  Lemma s_insert_text i f n x st : check_stmt (SInsert i f (text n) x) st = obnd (place_of uses alone n st) (fun st1 => obnd (check x st1) (borrow i)).
  Proof. reflexivity. Qed.
  Lemma s_insert_val i f v x st : check_stmt (SInsert i f (EVal v) x) st = obnd (check x st) (borrow i).
  Proof. reflexivity. Qed.
  Lemma s_insert_scheme i f r n y x st : check_stmt (SInsert i f (EMentionScheme r (lit n) (EVar y)) x) st =
    obnd (obnd (borrow y st) (borrow r)) (fun st1 => obnd (check x st1) (borrow i)).
  Proof. reflexivity. Qed.
  Lemma s_block l st : check_stmt (SBlock l) st = obnd (C l st) (fun st1 => Some (leave_slots st st1)).
  Proof. reflexivity. Qed.
  Lemma c_val v st : check (EVal v) st = Some st.
  Proof. reflexivity. Qed.
  Lemma c_user e st : check (EUser e) st = value_of uses alone e st.
  Proof. reflexivity. Qed.
  Lemma c_var x st : check (EVar x) st = take_value x st.
  Proof. reflexivity. Qed.
  Lemma c_lit s st : check (lit s) st = Some st.
  Proof. reflexivity. Qed.
  Lemma c_text e st : check (text e) st = place_of uses alone e st.
  Proof. reflexivity. Qed.
  Lemma c_con c x st : check (ECon c x) st = check x st.
  Proof. reflexivity. Qed.
  Lemma c_mention r t st : check (EMention r t) st = borrow r st.
  Proof. reflexivity. Qed.
  Lemma c_extract x st : check (EExtract (Some x)) st = check x st.
  Proof. reflexivity. Qed.
  Lemma c_struct n l st : check (EStruct n l) st = check_fields check l st.
  Proof. reflexivity. Qed.
  Lemma c_field {A} (f : A) x l st : check_fields check ((f, x) :: l) st = obnd (check x st) (check_fields check l).
  Proof. reflexivity. Qed.
  Lemma c_field1 {A} (f : A) x st : check_fields check [(f, x)] st = check x st.
  Proof. rewrite c_field. now destruct (check x st). Qed.
  Lemma c_or x y st : check (EOr x y) st = obnd (check x st) (check y).
  Proof. reflexivity. Qed.
  Lemma c_pair x y st : check (EPair x y) st = obnd (check x st) (check y).
  Proof. reflexivity. Qed.
  Lemma c_block l x st : check (EBlock l x) st = obnd (C l st) (fun st1 => obnd (check x st1) (fun st2 => Some (leave_slots st st2))).
  Proof. reflexivity. Qed.
  Lemma c_roles l st : check (EVec (map (fun r => EVal (XLit r)) l)) st = Some st.
  Proof. cbn. induction l; cbn; auto. Qed.

  Lemma flows_value K e st : keeps K st -> flows K st (value_of uses alone e st) (by_value e).
  Proof.
    intros Hk. apply flows_seq; [now apply flows_uses|]. intros st1 Hk1. destruct (alone e) as [x|]; [|now apply flows_same]. now apply (flows_use K (Take x)).
  Qed.
  Lemma flows_place K e st : keeps K st -> flows K st (place_of uses alone e st) (by_reference e).
  Proof.
    intros Hk. apply flows_seq; [now apply flows_uses|]. intros st1 Hk1. destruct (alone e) as [x|]; [|now apply flows_same]. now apply (flows_use K (Borrow x)).
  Qed.

  Lemma flows_eq K st o us us' : flows K st o us -> us = us' -> flows K st o us'.
  Proof. now intros H <-. Qed.
  Lemma flows_then0 (K K' : ident -> Prop) st o f us : (forall y, K y -> K' y) -> flows K' st o [] -> (forall st1, keeps K' st1 -> flows K st1 (f st1) us) ->
    flows K st (obnd o f) us.
  Proof. intros H1 H2 H3. apply (flows_then K K' st o f [] us); auto. Qed.
  (** declaring a variable, using it, and what comes then *)
  Lemma flows_let (K Kb K' : ident -> Prop) i x st f us1 us2 : marked i -> ~ K i -> (forall y, K y -> Kb y) -> (forall y, K' y -> Kb y \/ y = i) ->
    flows Kb st (check x st) us1 -> (forall st1, keeps K' st1 -> flows K st1 (f st1) us2) -> flows K st (obnd (check_stmt (SLet i x) st) f) (us1 ++ us2).
  Proof.
    intros Hm Hn HKb HK H Hf. rewrite s_let.
    assert (G : flows K st (obnd (check x st) (fun st1 => f ({| sl_id := i; sl_live := true; sl_copy := false |} :: st1))) (us1 ++ us2)).
    { apply (flows_then K Kb); auto. intros st1 Hk. eapply flows_new; [| |apply Hf]; auto. intros y Hy. destruct (ident_eq_dec y i) as [->|Hne].
      + split; auto. apply alive_cons. cbn. now destruct (ident_eq_dec i i).
      + apply HK in Hy as [Hy|Hy]; [|contradiction]. destruct (Hk y Hy). split; auto. apply alive_cons. cbn. destruct (ident_eq_dec y i); [contradiction|auto]. }
    now destruct (check x st).
  Qed.
  Lemma flows_let0 (K Kb K' : ident -> Prop) i x st f us : marked i -> ~ K i -> (forall y, K y -> Kb y) -> (forall y, K' y -> Kb y \/ y = i) ->
    flows Kb st (check x st) [] -> (forall st1, keeps K' st1 -> flows K st1 (f st1) us) -> flows K st (obnd (check_stmt (SLet i x) st) f) us.
  Proof. intros. apply (flows_let K Kb K' i x st f [] us); auto. Qed.
  (** statements one after the other, which may declare again what is tracked *)
  Lemma flows_props {A} (K K' : ident -> Prop) (code : A -> stmt) (us : A -> list use) us2 f l st :
    (forall a st f us2, keeps K' st -> (forall st1, keeps K' st1 -> flows K st1 (f st1) us2) -> flows K st (obnd (check_stmt (code a) st) f) (us a ++ us2)) ->
    keeps K' st -> (forall st1, keeps K' st1 -> flows K st1 (f st1) us2) -> flows K st (obnd (C (map code l) st) f) (flat_map us l ++ us2).
  Proof.
    intros H Hk Hf. revert st Hk. induction l as [|a l IH]; intros st Hk; [now apply Hf|]. cbn [map flat_map]. rewrite C_cons, <- app_assoc.
    replace (obnd (obnd (check_stmt (code a) st) (C (map code l))) f) with (obnd (check_stmt (code a) st) (fun st1 => obnd (C (map code l) st1) f))
      by now destruct (check_stmt (code a) st).
    apply H; auto.
  Qed.
  Lemma flows_block K l st us : flows K st (C l st) us -> flows K st (check_stmt (SBlock l) st) us.
  Proof. intros H. rewrite s_block. now apply flows_leave. Qed.
  Lemma flows_each {A} K (code : A -> stmt) (us : A -> list use) l st :
    (forall a st, In a l -> keeps K st -> flows K st (check_stmt (code a) st) (us a)) -> keeps K st -> flows K st (C (map code l) st) (flat_map us l).
  Proof.
    revert st. induction l as [|a l IH]; intros st H Hk; [now apply flows_same|]. cbn [map flat_map]. rewrite C_cons. apply flows_seq; [apply H; auto; now left|].
    intros st1 Hk1. apply IH; auto. intros. apply H; auto. now right.
  Qed.

  Lemma flat_map_nil {A B} (l : list A) : flat_map (fun _ => @nil B) l = [].
  Proof. induction l; auto. Qed.

  Section Result.
    Variable res : ident.

    (** ** Parameters *)
    Lemma param_prop_flows (K : ident -> Prop) par p st : K res -> K par -> keeps K st ->
      flows K st (check_stmt (expand_param_prop res par p) st) (param_prop_uses uses alone p).
    Proof.
      intros Hr Hp Hk. destruct p; cbn [expand_param_prop param_prop_uses]; rewrite s_set; unfold some; rewrite ?c_con, ?c_text, ?c_user, ?c_mention.
      - apply flows_seq1; [now apply flows_place|]. intros. now apply flows_borrow.
      - apply flows_seq1; [now apply flows_value|]. intros. now apply flows_borrow.
      - apply flows_seq1; [now apply flows_value|]. intros. now apply flows_borrow.
      - apply flows_seq0; [now apply flows_borrow|]. intros. now apply flows_borrow.
    Qed.
    Lemma parameter_literal_flows (K : ident -> Prop) i b t st : K res -> keeps K st -> flows K st (check (parameter_literal i b (EMention res t)) st) [].
    Proof.
      intros Hr Hk. unfold parameter_literal, none, some. rewrite c_struct, !c_field, !c_val. cbn [obnd]. rewrite c_field, c_val. cbn [obnd].
      rewrite c_field, c_val. cbn [obnd]. rewrite c_field, c_val. cbn [obnd]. rewrite c_field1, c_con, c_mention. now apply flows_borrow.
    Qed.
    Lemma keeps_weaken (K K' : ident -> Prop) st : (forall y, K y -> K' y) -> keeps K' st -> keeps K st.
    Proof. intros H Hk y Hy. now apply Hk, H. Qed.
    Lemma param_flows (K : ident -> Prop) ctx mk name i b t props st us :
      mk <> [] -> K res -> K ctx -> (forall y, K y -> fresh mk y) -> keeps K st ->
      (forall par K' st, marked par -> ~ K' par -> alive par st -> K' ctx -> keeps K' st ->
         flows K' st (check_stmt (SInsert ctx (Some Fparameters) name (EVar par)) st) us) ->
      flows K st (check_stmt (SBlock (SLet (Id (u "parameter") mk) (parameter_literal i b (EMention res t)) ::
        map (expand_param_prop res (Id (u "parameter") mk)) props ++ [SInsert ctx (Some Fparameters) name (EVar (Id (u "parameter") mk))])) st)
        (flat_map (param_prop_uses uses alone) props ++ us).
    Proof.
      intros Hm Hr Hc Hf Hk Hi. set (par := Id (u "parameter") mk). set (K' := fun y => K y \/ y = par).
      assert (Hp : ~ K par) by (intros H; apply Hf in H; now apply (H [])).
      apply flows_block. rewrite C_cons. apply (flows_let0 K K K'); [exact Hm|exact Hp|auto|auto|now apply parameter_literal_flows|].
      intros st1 Hk1. rewrite C_app. 
      assert (G : flows K' st1 (C (map (expand_param_prop res par) props) st1) (flat_map (param_prop_uses uses alone) props)).
      { apply flows_each; auto. intros. apply param_prop_flows; unfold K'; auto. }
      eapply flows_then; [|exact G|]; [unfold K'; auto|]. intros st2 Hk2. rewrite C_one. apply Hi; auto.
      - apply Hk2. now right.
      - eapply keeps_weaken; [|exact Hk2]. unfold K'. auto.
    Qed.
    Lemma insert_flows (K : ident -> Prop) ctx par st : marked par -> ~ K par -> alive par st -> K ctx -> keeps K st ->
      flows K st (obnd (take_value par st) (borrow ctx)) [].
    Proof. intros. apply flows_seq0; [now apply flows_take|]. intros. now apply flows_borrow. Qed.
    Lemma place_alive (K : ident -> Prop) par e st : ~ K par -> marked par -> alive par st -> keeps K st ->
      flows (fun y => K y \/ y = par) st (place_of uses alone e st) (by_reference e).
    Proof. intros Hn Hm Ha Hk. apply flows_place. intros y [Hy| ->]; auto. Qed.
    Lemma params_flows ctx l mk (K : ident -> Prop) st : mk <> [] -> K res -> K ctx -> (forall y, K y -> fresh mk y) -> keeps K st ->
      flows K st (C (expand_params mk res ctx l) st) (flat_map (param_uses uses alone) l).
    Proof.
      intros Hm Hr Hc. revert mk st Hm. induction l as [|d l IH]; intros mk st Hm Hf Hk; [now apply flows_same|].
      cbn [flat_map]. destruct d as [n props|n t props]; cbn [expand_params param_uses]; rewrite C_cons.
      - apply flows_seq; [|intros; apply IH; auto; [discriminate|intros; now apply fresh_cons, Hf]].
        apply param_flows; auto. intros par K' st' H1 H2 H3 H4 H5. rewrite s_insert_text. eapply flows_eq.
        + apply (flows_then K' (fun y => K' y \/ y = par)); [auto|now apply place_alive|]. intros st1 Hk1.
          apply insert_flows; auto; [apply Hk1; now right|]. eapply keeps_weaken; [|exact Hk1]. cbn; auto.
        + apply app_nil_r.
      - apply flows_seq; [|intros; apply IH; auto; [discriminate|intros; now apply fresh_cons, Hf]].
        rewrite <- (app_nil_r (flat_map _ _)). apply param_flows; auto. intros par K' st' H1 H2 H3 H4 H5. rewrite s_insert_lit.
        now apply insert_flows.
    Qed.

    (** ** Operations *)
    Lemma body_flows ctx b mk (K : ident -> Prop) st : mk <> [] -> K res -> K ctx -> (forall y, K y -> fresh mk y) -> keeps K st ->
      flows K st (C (expand_body mk res ctx b) st) [].
    Proof.
      intros Hm Hr Hc Hf Hk. destruct b as [l|t]; cbn [expand_body].
      - assert (Hn : forall n, ~ K (Id n mk)) by (intros n H; apply Hf in H; now apply (H [])).
        set (d := Id (u "description") mk). set (r := Id (u "required") mk). set (s := Id (u "schema") mk).
        assert (Hdr : d <> r) by ne. assert (Hds : d <> s) by ne. assert (Hrs : r <> s) by ne.
        set (K1 := fun y => K y \/ y = d). set (K2 := fun y => K1 y \/ y = r). set (K3 := fun y => K2 y \/ y = s).
        cbn [app]. rewrite C_cons. apply (flows_let0 K K K1); [exact Hm|apply Hn|auto|auto|now apply flows_same|]. intros st1 Hk1.
        rewrite C_cons. apply (flows_let0 K K1 K2); [exact Hm|apply Hn|unfold K1; auto|auto|now apply flows_same|]. intros st2 Hk2.
        rewrite C_cons. apply (flows_let0 K K2 K3); [exact Hm|apply Hn|unfold K2, K1; auto|auto|now apply flows_same|]. intros st3 Hk3.
        rewrite C_app.
        eapply flows_eq; [apply (flows_props K K3 _ (fun _ => []) []); [|exact Hk3|]|now rewrite flat_map_nil].
        + intros p st' f us2 Hk' Hfin. destruct p; cbn [expand_body_prop].
          * apply (flows_let0 K K3 K3); [exact Hm|apply Hn|unfold K3, K2, K1; auto|auto| |exact Hfin].
            rewrite c_mention. apply flows_borrow; auto. unfold K3, K2, K1. auto.
          * rewrite s_assign. unfold some. rewrite c_con, c_lit. cbn [obnd]. apply (flows_then K K3 _ _ _ [] us2); [unfold K3, K2, K1; auto| |exact Hfin].
            apply flows_assign; auto. unfold K3, K2, K1. auto.
          * rewrite s_assign, c_val. cbn [obnd]. apply (flows_then K K3 _ _ _ [] us2); [unfold K3, K2, K1; auto| |exact Hfin].
            apply flows_assign; auto. unfold K3, K2, K1. auto.
        + intros st4 Hk4. rewrite C_one, s_call, c_struct. apply flows_seq0; [|intros; now apply flows_borrow].
          rewrite c_field. apply (flows_then0 K (fun y => y = r \/ y = s \/ K y)); [auto| |].
          { rewrite c_or, c_var. apply flows_seq0; [|intros; unfold some; rewrite c_con, c_lit; now apply flows_same].
            apply flows_take; [exact Hm|apply Hk4; unfold K3, K2, K1; auto| |].
            - intros [H|[H|H]]; [now apply Hdr|now apply Hds|now apply (Hn (u "description"))].
            - eapply keeps_weaken; [|exact Hk4]. unfold K3, K2, K1. intros y [->|[->|H]]; auto. }
          intros st5 Hk5. rewrite c_field. apply (flows_then0 K (fun y => y = s \/ K y)); [auto| |].
          { rewrite c_var. apply flows_take; [exact Hm|apply Hk5; auto| |].
            - intros [H|H]; [now apply Hrs|now apply (Hn (u "required"))].
            - eapply keeps_weaken; [|exact Hk5]. cbn. intros y [->|H]; auto. }
          intros st6 Hk6. rewrite c_field1, c_var. apply flows_take; [exact Hm|apply Hk6; auto|apply Hn|].
          eapply keeps_weaken; [|exact Hk6]. cbn. auto.
      - rewrite C_one, s_call, c_struct, c_field. unfold some. rewrite c_con, c_lit. cbn [obnd]. rewrite c_field, c_val. cbn [obnd].
        rewrite c_field1, c_mention. apply flows_seq0; [now apply flows_borrow|]. intros. now apply flows_borrow.
    Qed.
  End Result.
End Templates.
