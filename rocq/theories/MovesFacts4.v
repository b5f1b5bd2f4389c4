(** Moves in the code of describe_api! (C87): sections, and the whole. *)
From Coq Require Import List NArith Bool PeanoNat Lia.
From Verif Require Import Str Api Expand ExpandFacts ExpandFacts2 OrderFacts2 Moves MovesSpec MovesFacts MovesFacts2 MovesFacts3.
Import ListNotations.

Lemma on_var_in f x pre pre' st : on_var f x pre = Some pre' -> on_var f x (pre ++ st) = Some (pre' ++ st).
Proof.
  revert pre'. induction pre as [|s pre IH]; cbn; [discriminate|]. intros pre'. destruct (ident_eq_dec x (sl_id s)).
  - destruct (f s); [|discriminate]. now intros [= <-].
  - destruct (on_var f x pre) as [p|]; [|discriminate]. intros [= <-]. now rewrite (IH _ eq_refl).
Qed.
Lemma live_alive x st : Forall (fun s => sl_live s = true) st -> In x (ids st) -> alive x st.
Proof.
  induction 1 as [|s st Hs H IH]; [contradiction|]. intros Hx. apply alive_cons. destruct (ident_eq_dec x (sl_id s)); auto. destruct Hx as [Hx|Hx]; [congruence|auto].
Qed.
Lemma use_all_app_skip us pre st : (forall w, In w us -> ~ In (Id (used w) []) (ids pre)) -> use_all us (pre ++ st) = option_map (app pre) (use_all us st).
Proof.
  revert st. induction us as [|w us IH]; intros st H; [reflexivity|]. cbn [use_all].
  assert (E : use_var w (pre ++ st) = option_map (app pre) (use_var w st)) by (destruct w; apply on_var_app, (H _ (or_introl eq_refl))).
  rewrite E. destruct (use_var w st); [|reflexivity]. cbn. apply IH. intros. apply H. now right.
Qed.
Lemma use_all_ids us st st' : use_all us st = Some st' -> ids st' = ids st.
Proof.
  revert st. induction us as [|w us IH]; cbn; intros st; [now intros [= <-]|]. destruct (use_var w st) as [s1|] eqn:E; [|discriminate]. intros H. apply IH in H. rewrite H.
  destruct w; eapply on_var_ids; try exact E; [apply borrow_id|apply take_id].
Qed.
Lemma uses_exact K us st : keeps K st ->
  match use_all us (callers st) with
  | None => use_all us st = None
  | Some cs => exists st', use_all us st = Some st' /\ ids st' = ids st /\ callers st' = cs /\ keeps K st'
  end.
Proof.
  intros Hk. pose proof (flows_uses K us st Hk) as H. unfold flows in H. destruct (use_all us (callers st)) as [cs|]; auto.
  destruct H as (ls & st' & E & Hi & Hc & Hk' & _). pose proof (use_all_ids _ _ _ E) as E'. assert (ls = []) as ->.
  { apply (f_equal (@length _)) in E', Hi. unfold ids in *. rewrite map_app, app_length, !map_length in E'. rewrite !map_length in Hi. destruct ls; [reflexivity|cbn in E'; lia]. }
  exists st'. auto.
Qed.

Section Templates.
  Variable uses : uexpr -> list use.
  Variable alone : uexpr -> option str.
  Variable seg : list tree -> option segment.
  Notation check := (check uses alone).
  Notation check_stmt := (check_stmt uses alone).
  Notation C := (check_all check_stmt).
  Notation by_value := (by_value uses alone).
  Notation by_reference := (by_reference uses alone).

  (** the values of some variables *)
  Lemma fields_flows (K : ident -> Prop) (l : list (fname * ident)) st : NoDup (map snd l) -> (forall x, In x (map snd l) -> marked x /\ ~ K x /\ alive x st) -> keeps K st ->
    flows K st (check_fields check (map (fun p => (fst p, EVar (snd p))) l) st) [].
  Proof.
    revert st. induction l as [|[f x] l IH]; intros st Hd Hx Hk; [now apply flows_same|]. cbn [map fst snd] in *. rewrite c_field, c_var. inversion_clear Hd as [|? ? Hn Hd'].
    destruct (Hx x (or_introl eq_refl)) as (Hm & HK & Ha).
    apply (flows_then0 K (fun y => K y \/ In y (map snd l))); [auto| |].
    - apply flows_take; auto; [tauto|]. intros y [Hy|Hy]; auto. destruct (Hx y (or_intror Hy)) as (? & _ & ?). auto.
    - intros st1 Hk1. apply IH; auto.
      + intros y Hy. destruct (Hx y (or_intror Hy)) as (? & ? & _). destruct (Hk1 y (or_intror Hy)). auto.
      + eapply keeps_weaken; [|exact Hk1]. cbn; auto.
  Qed.

  (** ** Tags and servers *)
  Lemma tags_flows (K : ident -> Prop) res l st : K res -> keeps K st ->
    flows K st (C (expand_tags res l) st) (flat_map (fun t => match snd t with Some e => by_reference e | None => [] end) l).
  Proof.
    intros Hr Hk. unfold expand_tags. rewrite C_one. apply flows_block, flows_each; auto. intros [n d] st1 _ Hk1. cbn [fst snd].
    rewrite s_insert_lit, c_struct, c_field1. apply flows_seq1; [|intros; now apply flows_borrow].
    destruct d as [e|]; cbn [option_map]; [rewrite c_extract, c_text; now apply flows_place|now apply flows_same].
  Qed.
  Lemma server_text_flows (K : ident -> Prop) t st : keeps K st -> flows K st (check (server_text t) st) (server_text_uses t).
  Proof.
    intros Hk. destruct t as [s|x]; cbn [server_text server_text_uses]; [now apply flows_same|].
    change (check (EToString (EVar (Id x []))) st) with (use_var (Take x) st). now apply flows_use.
  Qed.
  Lemma servers_flows (K : ident -> Prop) res l st : K res -> keeps K st ->
    flows K st (C (expand_servers res l) st) (flat_map (fun t => server_text_uses (fst t) ++ match snd t with Some d => server_text_uses d | None => [] end) l).
  Proof.
    intros Hr Hk. unfold expand_servers. rewrite C_one. apply flows_block, flows_each; auto. intros [n d] st1 _ Hk1. cbn [fst snd].
    rewrite s_push, c_struct, c_field. apply flows_seq1; [|intros; now apply flows_borrow]. apply flows_seq; [now apply server_text_flows|]. intros st2 Hk2.
    rewrite c_field1. destruct d as [t|]; cbn [option_map]; [rewrite c_extract; now apply server_text_flows|now apply flows_same].
  Qed.

  (** ** Security schemes *)
  Lemma text_assign (K K' : ident -> Prop) i e st f us2 : K' i -> (forall y, K y -> K' y) -> keeps K' st -> (forall st1, keeps K' st1 -> flows K st1 (f st1) us2) ->
    flows K st (obnd (check_stmt (SAssign i (some (text e))) st) f) (by_reference e ++ us2).
  Proof.
    intros Hi HK Hk Hf. apply (flows_then K K'); auto. rewrite s_assign. unfold some. rewrite c_con, c_text. apply flows_seq1; [now apply flows_place|]. intros. now apply flows_assign.
  Qed.
  Lemma match_flows (K : ident -> Prop) s f d st : f <> d -> marked f -> marked d -> ~ K s -> ~ K f -> ~ K d -> alive s st -> alive f st -> alive d st -> keeps K st ->
    flows K st (check (EMatchKind (EVar s) (EStruct NBasic [(Fdescription, EVar d)]) (EStruct NBearer [(Fformat, EVar f); (Fdescription, EVar d)])) st) [].
  Proof.
    intros Hfd Hmf Hmd Hs Hf Hd As Af Ad Hk.
    change (check (EMatchKind (EVar s) (EStruct NBasic [(Fdescription, EVar d)]) (EStruct NBearer [(Fformat, EVar f); (Fdescription, EVar d)])) st)
      with (obnd (borrow s st) (fun st1 => obnd (check (EStruct NBasic (map (fun p => (fst p, EVar (snd p))) [(Fdescription, d)])) st1) (fun st2 =>
              obnd (check (EStruct NBearer (map (fun p => (fst p, EVar (snd p))) [(Fformat, f); (Fdescription, d)])) st1) (fun st3 => Some (join st2 st3))))).
    rewrite As. cbn [obnd]. rewrite !c_struct.
    assert (H1 : flows K st (check_fields check (map (fun p => (fst p, EVar (snd p))) [(Fdescription, d)]) st) []).
    { apply fields_flows; auto; [repeat constructor; auto|]. intros x [<-|[]]. auto. }
    assert (H2 : flows K st (check_fields check (map (fun p => (fst p, EVar (snd p))) [(Fformat, f); (Fdescription, d)]) st) []).
    { apply fields_flows; auto; [repeat constructor; cbn; intuition congruence|]. intros x [<-|[<-|[]]]; auto. }
    destruct (alive_take _ _ Ad) as [s1 E1]. destruct (alive_take _ _ Af) as [s2 E2].
    assert (A2 : alive d s2) by (eapply on_var_alive; [apply take_id|exact E2|exact Hfd|exact Ad]). destruct (alive_take _ _ A2) as [s3 E3].
    cbn [map fst snd] in *. rewrite !c_field, !c_var, E1, E2 in *. cbn [obnd] in *. rewrite c_field1, c_var, E3 in *. change (check_fields check [] s1) with (Some s1) in *. cbn [obnd] in *.
    pose proof (on_var_ids _ _ _ _ take_id E1) as I1. pose proof (on_var_ids _ _ _ _ take_id E2) as I2. pose proof (on_var_ids _ _ _ _ take_id E3) as I3.
    apply (f_equal (@length _)) in I1, I2, I3. unfold ids in *. rewrite !map_length in *. apply flows_join; auto. lia.
  Qed.
  Lemma schemes_flows (K : ident -> Prop) res l mk st : mk <> [] -> K res -> (forall y, K y -> fresh mk y) -> keeps K st ->
    flows K st (C (expand_schemes mk res l) st) (flat_map (scheme_uses uses alone) l).
  Proof.
    intros Hm Hr. revert mk st Hm. induction l as [|d l IH]; intros mk st Hm Hf Hk; [now apply flows_same|]. cbn [flat_map].
    assert (Hn : forall n, ~ K (Id n mk)) by (intros n H; apply Hf in H; now apply (H [])).
    assert (G : forall st, keeps K st -> flows K st (C (expand_schemes (1 :: mk) res l) st) (flat_map (scheme_uses uses alone) l)).
    { intros. apply IH; auto; [discriminate|intros; now apply fresh_cons, Hf]. }
    destruct d as [n props|n props]; cbn [expand_schemes scheme_uses]; rewrite C_cons; (apply flows_seq; [|exact G]); apply flows_block; clear G IH.
    - set (a := Id (u "scheme") mk). set (b := Id (u "bearer_format") mk). set (c := Id (u "description") mk). set (h := Id (u "http_security_scheme") mk).
      assert (Hbc : b <> c) by ne.
      set (K1 := fun y => K y \/ y = a). set (K2 := fun y => K1 y \/ y = b). set (K3 := fun y => K2 y \/ y = c).
      assert (HK3 : forall y, K y -> K3 y) by (unfold K3, K2, K1; auto).
      cbn [app]. rewrite C_cons. apply (flows_let0 _ _ K K K1); [exact Hm|apply Hn|auto|auto|now apply flows_same|]. intros st1 Hk1.
      rewrite C_cons. apply (flows_let0 _ _ K K1 K2); [exact Hm|apply Hn|unfold K1; auto|auto|now apply flows_same|]. intros st2 Hk2.
      rewrite C_cons. apply (flows_let0 _ _ K K2 K3); [exact Hm|apply Hn|unfold K2, K1; auto|auto|now apply flows_same|]. intros st3 Hk3.
      rewrite C_app. rewrite <- (app_nil_r (flat_map _ _)). apply (flows_props _ _ K K3); [|exact Hk3|].
      + intros p st' f us2 Hk' Hfin. destruct p; cbn [expand_http_prop http_prop_uses app].
        * apply (flows_let0 _ _ K K3 K3); [exact Hm|apply Hn|auto|auto|now apply flows_same|exact Hfin].
        * apply (text_assign K K3); auto. unfold K3, K2. auto.
        * apply (text_assign K K3); auto. unfold K3. auto.
      + intros st4 Hk4. assert (Hk4' : keeps K st4) by (eapply keeps_weaken; [exact HK3|exact Hk4]). rewrite C_cons.
        apply (flows_let0 _ _ K K (fun y => K y \/ y = h)); [exact Hm|apply Hn|auto|auto| |].
        * apply match_flows; try exact Hm; try apply Hn; auto; apply Hk4; unfold K3, K2, K1; auto.
        * intros st5 Hk5. rewrite C_one, s_insert_lit, c_con, c_var. apply insert_flows; [exact Hm|apply Hn|apply Hk5; auto|exact Hr|]. eapply keeps_weaken; [|exact Hk5]. cbn; auto.
    - set (a := Id (u "parameter_in") mk). set (b := Id (u "name") mk). set (c := Id (u "description") mk). set (h := Id (u "scheme") mk).
      assert (Hab : a <> b) by ne. assert (Hac : a <> c) by ne. assert (Hbc : b <> c) by ne.
      set (K1 := fun y => K y \/ y = a). set (K2 := fun y => K1 y \/ y = b). set (K3 := fun y => K2 y \/ y = c).
      assert (HK3 : forall y, K y -> K3 y) by (unfold K3, K2, K1; auto).
      cbn [app]. rewrite C_cons. apply (flows_let0 _ _ K K K1); [exact Hm|apply Hn|auto|auto|now apply flows_same|]. intros st1 Hk1.
      rewrite C_cons. apply (flows_let0 _ _ K K1 K2); [exact Hm|apply Hn|unfold K1; auto|auto|now apply flows_same|]. intros st2 Hk2.
      rewrite C_cons. apply (flows_let0 _ _ K K2 K3); [exact Hm|apply Hn|unfold K2, K1; auto|auto|now apply flows_same|]. intros st3 Hk3.
      rewrite C_app. apply (flows_props _ _ K K3); [|exact Hk3|].
      + intros p st' f us2 Hk' Hfin. destruct p; cbn [expand_key_prop key_prop_uses app].
        * rewrite s_assign, c_val. cbn [obnd]. apply (flows_then0 K K3); auto. apply flows_assign; auto. unfold K3, K2, K1. auto.
        * apply (flows_let _ _ K K3 K3); [exact Hm|apply Hn|auto|auto|rewrite c_text; now apply flows_place|exact Hfin].
        * apply (text_assign K K3); auto. unfold K3. auto.
      + intros st4 Hk4. assert (Hk4' : keeps K st4) by (eapply keeps_weaken; [exact HK3|exact Hk4]). rewrite C_cons.
        apply (flows_let0 _ _ K K (fun y => K y \/ y = h)); [exact Hm|apply Hn|auto|auto| |].
        * rewrite c_struct. apply (fields_flows K [(Fparameter_in, a); (Fname, b); (Fdescription, c)]); auto.
          -- cbn. repeat constructor; cbn; intuition congruence.
          -- intros x [<-|[<-|[<-|[]]]]; (split; [exact Hm|split; [apply Hn|apply Hk4; unfold K3, K2, K1; auto]]).
        * intros st5 Hk5. rewrite C_one, s_insert_text. rewrite <- (app_nil_r (by_reference n)). apply (flows_then K (fun y => K y \/ y = h)); [auto|now apply flows_place|].
          intros st6 Hk6. rewrite c_var. apply insert_flows; [exact Hm|apply Hn|apply Hk6; auto|exact Hr|]. eapply keeps_weaken; [|exact Hk6]. cbn; auto.
  Qed.

  (** ** Info *)
  Lemma place_use e st : place_of uses alone e st = use_all (by_reference e) st.
  Proof.
    unfold place_of, MovesSpec.by_reference. rewrite use_all_app. destruct (use_all (uses e) st) as [s1|]; cbn; [|reflexivity]. destruct (alone e) as [x|]; [|reflexivity]. cbn.
    now destruct (borrow (Id x []) s1).
  Qed.
  Definition info_slot (p : xinfo_prop) : slot := {| sl_id := Id (info_name p) []; sl_live := true; sl_copy := false |}.
  Lemma info_lets K l pre st : keeps K st ->
    (forall p w, In p l -> In w (info_prop_uses uses alone p) -> ~ In (Id (used w) []) (ids pre)) ->
    (forall l1 p l2 q w, l = l1 ++ p :: l2 -> In q l1 -> In w (info_prop_uses uses alone p) -> used w <> info_name q) ->
    match use_all (flat_map (info_prop_uses uses alone) l) (callers st) with
    | None => C (map (fun p => SLet (Id (info_name p) []) (info_value p)) l) (pre ++ st) = None
    | Some cs => exists st', C (map (fun p => SLet (Id (info_name p) []) (info_value p)) l) (pre ++ st) = Some ((rev (map info_slot l) ++ pre) ++ st') /\
                   ids st' = ids st /\ callers st' = cs /\ keeps K st'
    end.
  Proof.
    revert pre st. induction l as [|p l IH]; intros pre st Hk Hp Hl.
    - exists st. cbn. auto.
    - cbn [flat_map map]. rewrite use_all_app, C_cons, s_let.
      assert (E : check (info_value p) (pre ++ st) = option_map (app pre) (use_all (info_prop_uses uses alone p) st)).
      { rewrite <- use_all_app_skip by (intros w Hw; apply (Hp p); auto; now left). destruct p; cbn [info_value info_prop_uses]; unfold some; rewrite ?c_con, c_text; apply place_use. }
      rewrite E. pose proof (uses_exact K (info_prop_uses uses alone p) st Hk) as H. destruct (use_all (info_prop_uses uses alone p) (callers st)) as [cs|]; cbn [obnd].
      + destruct H as (st1 & E1 & Hi1 & Hc1 & Hk1). rewrite E1. cbn [option_map obnd].
        specialize (IH (info_slot p :: pre) st1 Hk1). rewrite Hc1 in IH. cbn [app] in IH. unfold info_slot at 1 2 in IH.
        assert (P1 : forall q w, In q l -> In w (info_prop_uses uses alone q) -> ~ In (Id (used w) []) (ids (info_slot p :: pre))).
        { intros q w Hq Hw [H|H]; [|apply (Hp q w); auto; now right]. cbn in H. injection H as H. apply in_split in Hq as (l1 & l2 & ->).
          apply (Hl (p :: l1) q l2 p w); auto. now left. }
        specialize (IH P1). assert (P2 : forall l1 q l2 r w, l = l1 ++ q :: l2 -> In r l1 -> In w (info_prop_uses uses alone q) -> used w <> info_name r).
        { intros l1 q l2 r w -> Hr Hw. apply (Hl (p :: l1) q l2 r w); auto. now right. }
        specialize (IH P2). destruct (use_all (flat_map _ l) cs) as [cs2|]; [|exact IH]. destruct IH as (st2 & E2 & Hi2 & Hc2 & Hk2). exists st2.
        cbn [map rev]. rewrite <- !app_assoc in *. cbn [app] in *. split; [exact E2|]. split; [congruence|]. auto.
      + rewrite H. reflexivity.
  Qed.
  Lemma info_takes (l : list xinfo_prop) pre st : NoDup (map info_name l) -> (forall p, In p l -> alive (Id (info_name p) []) pre) ->
    exists pre', check_fields check (map (fun p => (info_field p, EVar (Id (info_name p) []))) l) (pre ++ st) = Some (pre' ++ st) /\ ids pre' = ids pre.
  Proof.
    revert pre. induction l as [|p l IH]; intros pre Hd Ha; [exists pre; cbn; auto|]. cbn [map] in *. inversion_clear Hd as [|? ? Hn Hd']. rewrite c_field, c_var.
    destruct (alive_take _ _ (Ha p (or_introl eq_refl))) as [p1 E1]. pose proof (on_var_in _ _ _ _ st E1) as E1'. fold take_value in E1'. rewrite E1'. cbn [obnd].
    destruct (IH p1) as (pre' & E2 & Hi); auto.
    - intros q Hq. eapply on_var_alive; [apply take_id|exact E1| |apply Ha; now right]. intros [= Hx]. apply Hn. rewrite Hx. now apply in_map.
    - exists pre'. split; auto. rewrite Hi. eapply on_var_ids; [apply take_id|exact E1].
  Qed.
  Lemma info_flows (K : ident -> Prop) res l st : K res -> keeps K st -> info_tidy uses alone l ->
    flows K st (C (expand_info res l) st) (flat_map (info_prop_uses uses alone) l).
  Proof.
    intros Hr Hk [Hd Hl]. unfold expand_info. rewrite C_one, s_block, C_app. unfold flows.
    pose proof (info_lets K l [] st Hk) as H. cbn [app ids map] in H. specialize (H (fun _ _ _ _ x => x) Hl).
    destruct (use_all _ (callers st)) as [cs|]; [|now rewrite H]. destruct H as (st' & E & Hi & Hc & Hk'). rewrite E, app_nil_r. cbn [obnd].
    rewrite C_one, s_set, c_struct.
    destruct (info_takes l (rev (map info_slot l)) st' Hd) as (pre' & E2 & Hi2).
    { intros p Hp. apply live_alive.
      - apply Forall_forall. intros s Hs. apply in_rev in Hs. apply in_map_iff in Hs as (q & <- & _). reflexivity.
      - unfold ids. rewrite map_rev, map_map. apply in_rev. rewrite rev_involutive. apply (in_map (fun p => sl_id (info_slot p)) _ _ Hp). }
    rewrite E2. cbn [obnd]. destruct (Hk' res Hr) as [Hmr Har].
    assert (Har' : alive res (pre' ++ st')).
    { apply alive_app; auto. rewrite Hi2. unfold ids. rewrite map_rev, map_map. intros Hin. apply in_rev in Hin. apply in_map_iff in Hin as (q & <- & _). now apply Hmr. }
    rewrite Har'. cbn [obnd]. rewrite leave_app by exact Hi. exists [], st'. split; [reflexivity|]. split; [exact Hi|]. split; [exact Hc|]. split; [exact Hk'|contradiction].
  Qed.

  (** ** The invocation *)
  Lemma section_flows (K : ident -> Prop) res s mk st : (forall l, s = XcInfo l -> info_tidy uses alone l) -> mk <> [] -> K res -> (forall y, K y -> fresh mk y) -> keeps K st ->
    flows K st (C (expand_section seg mk res s) st) (section_uses uses alone s).
  Proof.
    intros Hi Hm Hr Hf Hk. destruct s as [l|l|l|l|l]; cbn [expand_section section_uses].
    - apply info_flows; auto.
    - now apply tags_flows.
    - now apply servers_flows.
    - now apply schemes_flows.
    - rewrite C_one. apply flows_block, flows_each; auto. intros d st1 _ Hk1. apply path_flows; auto. apply decl_good. apply callbacks_good.
  Qed.
  Lemma sections_flows (K : ident -> Prop) res x mk st : (forall l, In (XcInfo l) x -> info_tidy uses alone l) -> mk <> [] -> K res -> (forall y, K y -> fresh mk y) -> keeps K st ->
    flows K st (C (expand_sections seg mk res x) st) (api_uses uses alone x).
  Proof.
    intros Hi Hm Hr. revert mk st Hm. induction x as [|s x IH]; intros mk st Hm Hf Hk; [now apply flows_same|]. cbn [expand_sections]. unfold api_uses. cbn [flat_map].
    rewrite C_app. apply flows_seq; [apply section_flows|intros; apply IH]; auto; try discriminate; try (intros; now apply fresh_cons, Hf).
    - intros l ->. apply Hi. now left.
    - intros l Hl. apply Hi. now right.
  Qed.
  Lemma api_flows x st : (forall l, In (XcInfo l) x -> info_tidy uses alone l) -> flows (fun _ => False) st (check (expand_api seg x) st) (api_uses uses alone x).
  Proof.
    intros Hi. unfold expand_api. set (res := Id (u "result") [0]). rewrite c_block.
    assert (G : flows (fun _ => False) st (obnd (C (SLet res (EVal (XOpg opg_default)) :: expand_sections seg [1] res x) st) (check (EVar res))) (api_uses uses alone x)).
    { rewrite C_cons.
      replace (obnd (obnd (check_stmt (SLet res (EVal (XOpg opg_default))) st) (C (expand_sections seg [1] res x))) (check (EVar res)))
        with (obnd (check_stmt (SLet res (EVal (XOpg opg_default))) st) (fun st1 => obnd (C (expand_sections seg [1] res x) st1) (check (EVar res)))) by reflexivity.
      apply (flows_let0 _ _ (fun _ => False) (fun _ => False) (fun y => y = res)); [discriminate|auto|auto|auto|apply flows_same; intros y []|].
      intros st1 Hk1. rewrite <- (app_nil_r (api_uses uses alone x)). apply (flows_then (fun _ => False) (fun y => y = res)); [contradiction| |].
      - apply sections_flows; auto; [discriminate|]. intros y -> l E. change ([0] = l ++ [1]) in E. destruct l as [|? [|]]; discriminate.
      - intros st2 Hk2. rewrite c_var. apply flows_take; [discriminate|now apply Hk2|auto|intros y []]. }
    apply flows_leave in G. destruct (C _ st); [|exact G]. cbn [obnd] in G |- *. exact G.
  Qed.
End Templates.

(** ** What is allowed *)
Fixpoint find_var (x : str) (st : slots) : option (bool * bool) :=
  match st with [] => None | s :: st' => if ident_eq_dec (Id x []) (sl_id s) then Some (sl_live s, sl_copy s) else find_var x st' end.
Lemma on_var_find f x st st' : keeps_id f -> on_var f (Id x []) st = Some st' -> exists s s', f s = Some s' /\ find_var x st = Some (sl_live s, sl_copy s) /\
  forall y, find_var y st' = if list_eq_dec N.eq_dec y x then Some (sl_live s', sl_copy s') else find_var y st.
Proof.
  intros Hf. revert st'. induction st as [|s st IH]; cbn [on_var find_var]; [discriminate|]. intros st'. destruct (ident_eq_dec (Id x []) (sl_id s)) as [E|E].
  - destruct (f s) as [s'|] eqn:Ef; [|discriminate]. intros [= <-]. exists s, s'. split; auto. split; auto. intros y. cbn [find_var]. rewrite (Hf _ _ Ef), <- E.
    destruct (ident_eq_dec (Id y []) (Id x [])) as [Ey|Ey]; destruct (list_eq_dec N.eq_dec y x) as [Hy|Hy]; congruence.
  - destruct (on_var f (Id x []) st) as [st1|] eqn:E1; [|discriminate]. intros [= <-]. destruct (IH _ eq_refl) as (t & t' & H1 & H2 & H3). exists t, t'. split; auto. split; auto.
    intros y. cbn [find_var]. rewrite H3. destruct (ident_eq_dec (Id y []) (sl_id s)) as [Ey|Ey]; destruct (list_eq_dec N.eq_dec y x) as [Hy|Hy]; congruence.
Qed.
Lemma on_var_missing f x st : on_var f (Id x []) st = None -> find_var x st = None \/ exists s, f s = None /\ find_var x st = Some (sl_live s, sl_copy s).
Proof.
  induction st as [|s st IH]; cbn [on_var find_var]; [auto|]. destruct (ident_eq_dec (Id x []) (sl_id s)).
  - destruct (f s) eqn:E; [discriminate|]. eauto.
  - destruct (on_var f (Id x []) st); [discriminate|]. auto.
Qed.
Lemma use_fails w st : use_var w st = None -> forall c, find_var (used w) st <> Some (true, c).
Proof.
  intros H c. destruct w as [x|x]; cbn [use_var used] in *; apply on_var_missing in H as [H|(s & H & ->)]; try congruence; destruct (sl_live s); congruence.
Qed.
Lemma use_works w st st' : use_var w st = Some st' -> exists c, find_var (used w) st = Some (true, c) /\
  forall y, find_var y st' = if list_eq_dec N.eq_dec y (used w) then Some (match w with Borrow _ => true | Take _ => c end, c) else find_var y st.
Proof.
  intros H. destruct w as [x|x]; cbn [use_var used] in *.
  - apply on_var_find in H as (s & s' & E & Hs & Hy); [|apply borrow_id]. destruct (sl_live s) eqn:El; [|discriminate]. injection E as <-. exists (sl_copy s). split; auto.
    intros y. rewrite Hy, El. reflexivity.
  - apply on_var_find in H as (s & s' & E & Hs & Hy); [|apply take_id]. destruct (sl_live s) eqn:El; [|discriminate]. injection E as <-. exists (sl_copy s). split; auto.
Qed.
Lemma allowed_use us st : use_all us st <> None <->
  (forall w, In w us -> exists c, find_var (used w) st = Some (true, c)) /\
  (forall l1 x l2 w, us = l1 ++ Take x :: l2 -> In w l2 -> used w = x -> find_var x st = Some (true, true)).
Proof.
  revert st. induction us as [|w us IH]; intros st.
  - split; [|discriminate]. intros _. split; [contradiction|]. intros [|] x l2 w E; discriminate.
  - cbn [use_all]. destruct (use_var w st) as [st'|] eqn:E; cbn [obnd].
    + apply use_works in E as (c & Hw & Hy). rewrite IH. split; intros [H1 H2]; split.
      * intros v [<-|Hv]; [eauto|]. destruct (H1 v Hv) as [c' Hc']. rewrite Hy in Hc'. destruct (list_eq_dec N.eq_dec (used v) (used w)) as [Ev|]; [rewrite Ev|]; eauto.
      * intros l1 x l2 v El Hv Hx. destruct l1 as [|a l1]; cbn in El; injection El as -> ->.
        -- destruct (H1 v Hv) as [c' Hc']. rewrite Hy, Hx in Hc'. cbn [used] in *. destruct (list_eq_dec N.eq_dec x x); [|contradiction]. injection Hc' as -> _. exact Hw.
        -- pose proof (H2 l1 x l2 v eq_refl Hv Hx) as Hf. rewrite Hy in Hf. destruct (list_eq_dec N.eq_dec x (used a)) as [Ex|]; [|exact Hf]. subst x. rewrite Ex. injection Hf as _ ->. exact Hw.
      * intros v Hv. rewrite Hy. destruct (list_eq_dec N.eq_dec (used v) (used w)) as [Ev|]; [|apply H1; now right]. destruct w as [x|x]; [eauto|].
        pose proof (H2 [] x us v eq_refl Hv Ev) as Hf. cbn [used] in Hw. rewrite Hf in Hw. injection Hw as <-. eauto.
      * intros l1 x l2 v -> Hv Hx. pose proof (H2 (w :: l1) x l2 v eq_refl Hv Hx) as Hf. rewrite Hy. destruct (list_eq_dec N.eq_dec x (used w)) as [Ex|]; [|exact Hf].
        rewrite <- Ex, Hf in Hw. injection Hw as <-. now destruct w.
    + split; [now intros []|]. intros [H1 _]. destruct (H1 w (or_introl eq_refl)) as [c Hc]. exfalso. eapply use_fails; eauto.
Qed.
Definition variables (vars : list (str * bool)) : slots := map (fun v => {| sl_id := Id (fst v) []; sl_live := true; sl_copy := snd v |}) vars.
Lemma find_variables vars x : find_var x (variables vars) = option_map (fun c => (true, c)) (copyable vars x).
Proof.
  induction vars as [|[y c] vars IH]; [reflexivity|]. cbn [variables map find_var copyable sl_id fst snd sl_live sl_copy].
  destruct (ident_eq_dec (Id x []) (Id y [])) as [E|E]; destruct (list_eq_dec N.eq_dec x y) as [H|H]; try congruence; [reflexivity|exact IH].
Qed.
Lemma callers_variables vars : callers (variables vars) = variables vars.
Proof. induction vars as [|v vars IH]; [reflexivity|]. cbn [variables map]. rewrite callers_unmarked by reflexivity. f_equal. exact IH. Qed.
Lemma allowed_all us vars : use_all us (variables vars) <> None <-> allowed vars us.
Proof.
  rewrite allowed_use. unfold allowed. split; intros [H1 H2]; split.
  - intros w Hw E. destruct (H1 w Hw) as [c Hc]. rewrite find_variables, E in Hc. discriminate.
  - intros l1 x l2 w El Hw Hx. specialize (H2 _ _ _ _ El Hw Hx). rewrite find_variables in H2. destruct (copyable vars x); [|discriminate]. now injection H2 as ->.
  - intros w Hw. rewrite find_variables. specialize (H1 w Hw). destruct (copyable vars (used w)); [|contradiction]. cbn. eauto.
  - intros l1 x l2 w El Hw Hx. rewrite find_variables, (H2 _ _ _ _ El Hw Hx). reflexivity.
Qed.

Theorem moves_checked uses alone seg vars x : (forall l, In (XcInfo l) x -> info_tidy uses alone l) ->
  passes uses alone seg vars x <-> allowed vars (api_uses uses alone x).
Proof.
  intros Hi. rewrite <- allowed_all. unfold passes. fold (variables vars). pose proof (api_flows uses alone seg x (variables vars) Hi) as H. unfold flows in H.
  rewrite callers_variables in H. destruct (use_all _ (variables vars)) as [cs|].
  - destruct H as (ls & st' & -> & _). split; intros _; discriminate.
  - rewrite H. reflexivity.
Qed.
Theorem own_variables uses alone seg vars x : (forall e, uses e = []) -> (forall e, alone e = None) ->
  (forall l, In (XcInfo l) x -> NoDup (map info_name l)) -> api_uses uses alone x = [] -> passes uses alone seg vars x.
Proof.
  intros Hu Ha Hi He. apply moves_checked.
  - intros l Hl. split; auto. intros l1 p l2 q w _ _ Hw. destruct p; cbn in Hw; unfold by_reference in Hw; rewrite Hu, Ha in Hw; contradiction.
  - rewrite He. split; [contradiction|]. intros [|] y l2 w E; discriminate.
Qed.
Theorem many_uses uses alone seg vars x : (forall l, In (XcInfo l) x -> info_tidy uses alone l) ->
  (forall w, In w (api_uses uses alone x) -> copyable vars (used w) = Some true \/ exists n, w = Borrow n /\ copyable vars n = Some false /\ ~ In (Take n) (api_uses uses alone x)) ->
  passes uses alone seg vars x.
Proof.
  intros Hi H. apply moves_checked; auto. split.
  - intros w Hw. destruct (H w Hw) as [->|(n & -> & E & _)]; [discriminate|]. cbn. now rewrite E.
  - intros l1 y l2 w E Hw Hy. destruct (H (Take y)) as [Hc|(n & Hn & _)]; [|exact Hc|discriminate]. rewrite E. apply in_or_app. right. now left.
Qed.
