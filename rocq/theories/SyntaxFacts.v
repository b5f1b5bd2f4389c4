(** Facts about the rules: fragments, keys with values, and lists that are eaten item by item. *)
From Verif Require Import Match MatchFacts MatchFacts2 MatchFacts3 SyntaxSpec.
Local Open Scope string_scope. Local Open Scope list_scope.

Lemma trees_tt ts : trees (tt_rounds ts) = ts.
Proof. unfold trees, tt_rounds. induction ts as [|t ts IH]; [reflexivity|]. cbn. now rewrite IH. Qed.
Lemma all_some_forall2 {A B} (f : A -> option B) l bs : all_some f l = Some bs <-> Forall2 (fun a b => f a = Some b) l bs.
Proof.
  revert bs. induction l as [|a l IH]; intros bs; cbn.
  - split; [intros [= <-]; constructor|intros H; inversion H; reflexivity].
  - destruct (f a) as [b|] eqn:E.
    + destruct (all_some f l) as [bs'|] eqn:E'.
      * split; [intros [= <-]; constructor; [assumption|now apply IH]|]. intros H. inversion H as [|? ? ? ? H1 H2]; subst.
        apply IH in H2. congruence.
      * split; [discriminate|]. intros H. inversion H as [|? ? ? ? H1 H2]; subst. apply IH in H2. discriminate.
    + split; [discriminate|]. intros H. inversion H; subst. congruence.
Qed.

(** ** Lists *)
Lemma comma_list_map {X Y} (item : list tree -> X -> Prop) (f : X -> option Y) ts xs ys :
  comma_list item ts xs -> all_some f xs = Some ys -> comma_list (fun t y => exists x, item t x /\ f x = Some y) ts ys.
Proof.
  intros H. revert ys. induction H as [|ts x Hx|ts x rest xs Hx Hl IH]; intros ys Hy; cbn in Hy.
  - injection Hy as <-. constructor.
  - destruct (f x) as [y|] eqn:E; [|discriminate]. injection Hy as <-. apply cl_last. eauto.
  - destruct (f x) as [y|] eqn:E; [|discriminate]. destruct (all_some f xs) as [ys'|]; [|discriminate]. injection Hy as <-.
    apply cl_more; eauto.
Qed.
Lemma comma_list_impl {X Y} (item : list tree -> X -> Prop) (item' : list tree -> Y -> Prop) (R : X -> Y -> Prop) ts xs :
  (forall t x, item t x -> exists y, item' t y /\ R x y) -> comma_list item ts xs ->
  exists ys, comma_list item' ts ys /\ Forall2 R xs ys.
Proof.
  intros Hi H. induction H as [|ts x Hx|ts x rest xs Hx Hl (ys & H1 & H2)].
  - exists []. split; constructor.
  - destruct (Hi _ _ Hx) as (y & Hy & HR). exists [y]. split; [now apply cl_last|]. repeat constructor. assumption.
  - destruct (Hi _ _ Hx) as (y & Hy & HR). exists (y :: ys). split; [now apply cl_more|]. now constructor.
Qed.
Lemma sep_list_impl {X Y} sep (item : list tree -> X -> Prop) (item' : list tree -> Y -> Prop) (R : X -> Y -> Prop) ts xs :
  (forall t x, item t x -> exists y, item' t y /\ R x y) -> sep_list sep item ts xs ->
  exists ys, sep_list sep item' ts ys /\ Forall2 R xs ys.
Proof.
  intros Hi H. induction H as [ts x Hx|ts x rest xs Hx Hl (ys & H1 & H2)].
  - destruct (Hi _ _ Hx) as (y & Hy & HR). exists [y]. split; [now apply sl_last|]. repeat constructor. assumption.
  - destruct (Hi _ _ Hx) as (y & Hy & HR). exists (y :: ys). split; [now apply sl_more|]. now constructor.
Qed.
Lemma many_impl {X Y} (item : list tree -> X -> Prop) (item' : list tree -> Y -> Prop) (R : X -> Y -> Prop) ts xs :
  (forall t x, item t x -> exists y, item' t y /\ R x y) -> many item ts xs -> exists ys, many item' ts ys /\ Forall2 R xs ys.
Proof.
  intros Hi H. induction H as [|ts x rest xs Hx Hl (ys & H1 & H2)].
  - exists []. split; constructor.
  - destruct (Hi _ _ Hx) as (y & Hy & HR). exists (y :: ys). split; [now apply mn_more|]. now constructor.
Qed.
Lemma loose_list_impl {X Y} (item : list tree -> X -> Prop) (item' : list tree -> Y -> Prop) (R : X -> Y -> Prop) ts xs :
  (forall t x, item t x -> exists y, item' t y /\ R x y) -> loose_list item ts xs ->
  exists ys, loose_list item' ts ys /\ Forall2 R xs ys.
Proof.
  intros Hi [H|[-> ->]].
  - destruct (comma_list_impl _ _ _ _ _ Hi H) as (ys & H1 & H2). exists ys. split; [now left|assumption].
  - exists []. split; [now right|constructor].
Qed.
Lemma strict_list_impl {X Y} (item : list tree -> X -> Prop) (item' : list tree -> Y -> Prop) (R : X -> Y -> Prop) ts xs :
  (forall t x, item t x -> exists y, item' t y /\ R x y) -> strict_list item ts xs ->
  exists ys, strict_list item' ts ys /\ Forall2 R xs ys.
Proof.
  intros Hi [H|[-> ->]].
  - destruct (sep_list_impl _ _ _ _ _ _ Hi H) as (ys & H1 & H2). exists ys. split; [now left|assumption].
  - exists []. split; [now right|constructor].
Qed.
Lemma forall2_flip {A B} (R : A -> B -> Prop) l m : Forall2 R l m -> Forall2 (fun b a => R a b) m l.
Proof. induction 1; constructor; assumption. Qed.
Lemma comma_list_all {X} (item : list tree -> X -> Prop) (P : list tree -> Prop) ts xs : comma_list item ts xs ->
  (forall t x, item t x -> P t) -> comma_list (fun t x => item t x /\ P t) ts xs.
Proof. intros H Hp. induction H; [constructor|apply cl_last; eauto|apply cl_more; eauto]. Qed.

Section Facts.
  Variable C : caller.
  Hypothesis HC : rust_like C.
  Notation Goes := (Goes (begins C) (expr_at C) (path_at C)).
  Notation matches := (matches (begins C) (expr_at C) (path_at C)).
  Notation sm := (sm (begins C) (expr_at C) (path_at C)).
  Notation rounds := (rounds (begins C) (expr_at C) (path_at C)).
  Notation parse := (parse_frag (expr_at C) (path_at C)).

  (** ** Fragments *)
  Lemma take_app n e rest : n = Some (length e) -> e <> [] -> take n (e ++ rest) = FOk (BToks e) rest.
  Proof.
    intros -> He. destruct e as [|t e]; [now destruct He|]. unfold take. cbn [length].
    replace (Nat.leb (S (length e)) (length ((t :: e) ++ rest))) with true
      by (symmetry; apply PeanoNat.Nat.leb_le; cbn; rewrite app_length; lia).
    cbn [app firstn skipn]. rewrite firstn_app, skipn_app, firstn_all, skipn_all, PeanoNat.Nat.sub_diag. cbn. now rewrite app_nil_r.
  Qed.
  Lemma expr_stops e rest : stops [COMMA] rest -> (expr_at C (e ++ rest) = Some (length e) <-> an_expr C e).
  Proof.
    intros [->|(t & r & -> & [<-|[]])]; [now rewrite app_nil_r|]. apply (expr_comma C HC).
  Qed.
  Lemma path_stops e rest : stops [COMMA] rest -> (path_at C (e ++ rest) = Some (length e) <-> a_path C e).
  Proof.
    intros [->|(t & r & -> & [<-|[]])]; [now rewrite app_nil_r|]. apply (path_comma C HC).
  Qed.
  Lemma expr_head e : an_expr C e -> exists t e', e = t :: e' /\ begins C t = true.
  Proof.
    intros H. destruct e as [|t e]; [apply (expr_size C HC) in H; cbn in H; lia|]. exists t, e. split; [reflexivity|].
    eapply expr_begins; eauto.
  Qed.
  Lemma path_head e : a_path C e -> exists t e', e = t :: e' /\ ((exists s, t = TkId s) \/ t = tk_pu "::").
  Proof.
    intros H. destruct e as [|t e]; [apply (path_size C HC) in H; cbn in H; lia|]. exists t, e. split; [reflexivity|].
    eapply path_begins; eauto.
  Qed.
  Lemma goes_expr e cur k rest r : an_expr C e -> stops [COMMA] rest -> Goes [(BToks e :: cur, k)] rest r ->
    Goes [(cur, KP (PV FExpr) :: k)] (e ++ rest) r.
  Proof.
    intros He Hs H. destruct (expr_head e He) as (t & e' & -> & Hb). cbn [app]. eapply goes_frag; [exact Hb| |exact H].
    cbn [parse_frag]. apply (take_app _ (t :: e')); [|discriminate]. now apply (expr_stops (t :: e')).
  Qed.
  Lemma path_may t : (exists s, t = TkId s) \/ t = tk_pu "::" -> may_begin (begins C) FPath t = true.
  Proof. intros [[s ->]| ->]; reflexivity. Qed.
  Lemma goes_path e cur k rest r : a_path C e -> stops [COMMA] rest -> Goes [(BToks e :: cur, k)] rest r ->
    Goes [(cur, KP (PV FPath) :: k)] (e ++ rest) r.
  Proof.
    intros He Hs H. destruct (path_head e He) as (t & e' & -> & Hb). cbn [app]. eapply goes_frag; [now apply path_may| |exact H].
    cbn [parse_frag]. apply (take_app _ (t :: e')); [|discriminate]. now apply (path_stops (t :: e')).
  Qed.
  Lemma goes_ident n cur k rest r : a_name n -> Goes [(BId n :: cur, k)] rest r -> Goes [(cur, KP (PV FIdent) :: k)] (TkId n :: rest) r.
  Proof.
    intros Hn H. eapply goes_frag; [|reflexivity|exact H]. unfold may_begin. apply negb_true_iff, str_eqb_neq, Hn.
  Qed.
  Lemma goes_lit l cur k rest r : Goes [(BLit (lit_value l) :: cur, k)] rest r -> Goes [(cur, KP (PV FLit) :: k)] (TkLit l :: rest) r.
  Proof. intros H. eapply goes_frag; [reflexivity|reflexivity|exact H]. Qed.
  Lemma goes_bool (b : bool) cur k rest r : Goes [(BLit (VBool b) :: cur, k)] rest r ->
    Goes [(cur, KP (PV FLit) :: k)] (tk_id (if b then "true" else "false") :: rest) r.
  Proof. intros H. destruct b; (eapply goes_frag; [reflexivity|reflexivity|exact H]). Qed.
  Lemma goes_neg l cur k rest r : Goes [(BLit (VNeg l) :: cur, k)] rest r -> Goes [(cur, KP (PV FLit) :: k)] (tk_pu "-" :: TkLit l :: rest) r.
  Proof. intros H. eapply goes_frag; [reflexivity|reflexivity|exact H]. Qed.
  Lemma goes_tt t cur k rest r : Goes [(BToks [t] :: cur, k)] rest r -> Goes [(cur, KP (PV FTt) :: k)] (t :: rest) r.
  Proof. intros H. eapply goes_frag; [reflexivity|reflexivity|exact H]. Qed.
  (** what a literal is *)
  Inductive lit_form : list tree -> lval -> Prop :=
  | lf_lit l : lit_form [TkLit l] (lit_value l)
  | lf_bool (b : bool) : lit_form [tk_id (if b then "true" else "false")] (VBool b)
  | lf_neg l : lit_form [tk_pu "-"; TkLit l] (VNeg l).
  Lemma goes_literal ts v cur k rest r : lit_form ts v -> Goes [(BLit v :: cur, k)] rest r -> Goes [(cur, KP (PV FLit) :: k)] (ts ++ rest) r.
  Proof. intros [] H; [now apply goes_lit|now apply goes_bool|now apply goes_neg]. Qed.

  (** ** Inversions *)
  Lemma inv_nil i r b : sm [] i r b -> i = r /\ b = [].
  Proof. intros H. inversion H; auto. Qed.
  Lemma inv_tok t ps i r b : sm (PT t :: ps) i r b -> exists i', i = t :: i' /\ sm ps i' r b.
  Proof. intros H. inversion H; subst. eauto. Qed.
  Lemma inv_grp d q ps i r b : sm (PG d q :: ps) i r b -> exists l i' b1 b2, i = TkGr d l :: i' /\ sm q l [] b1 /\ sm ps i' r b2 /\ b = b1 ++ b2.
  Proof. intros H. inversion H; subst. do 4 eexists. eauto. Qed.
  Lemma inv_ident ps i r b : sm (PV FIdent :: ps) i r b -> exists n i' b', i = TkId n :: i' /\ a_name n /\ b = BId n :: b' /\ sm ps i' r b'.
  Proof.
    intros H. inversion H as [| | |f ps' t i0 i' r' v b' H1 H2 H3| |]; subst. destruct t as [n| | |]; try discriminate.
    injection H2 as <- <-. exists n, i0, b'. split; [reflexivity|]. split; [|auto].
    cbn [may_begin] in H1. apply negb_true_iff, str_eqb_neq in H1. exact H1.
  Qed.
  Lemma inv_lit ps i r b : sm (PV FLit :: ps) i r b -> exists ts v i' b', i = ts ++ i' /\ lit_form ts v /\ b = BLit v :: b' /\ sm ps i' r b'.
  Proof.
    intros H. inversion H as [| | |f ps' t i0 i' r' v b' H1 H2 H3| |]; subst. destruct t as [n|l|p|]; try discriminate.
    - injection H2 as <- <-. cbn [may_begin] in H1. apply orb_true_iff in H1.
      destruct H1 as [H1|H1]; apply str_eqb_eq in H1; subst n.
      + exists [tk_id "true"], (VBool true), i0, b'. repeat split; [exact (lf_bool true)|assumption].
      + exists [tk_id "false"], (VBool false), i0, b'. repeat split; [exact (lf_bool false)|assumption].
    - injection H2 as <- <-. exists [TkLit l], (lit_value l), i0, b'. repeat split; [constructor|assumption].
    - cbn [may_begin] in H1. apply str_eqb_eq in H1. subst p. destruct i0 as [|[|l| |] i0]; try discriminate. injection H2 as <- <-.
      exists [tk_pu "-"; TkLit l], (VNeg l), i0, b'. repeat split; [constructor|assumption].
  Qed.
  Lemma take_inv n ts v rest : take n ts = FOk v rest -> exists e, ts = e ++ rest /\ v = BToks e /\ n = Some (length e) /\ e <> [].
  Proof.
    destruct n as [[|k]|]; try discriminate. unfold take. destruct (Nat.leb _ _) eqn:El; [|discriminate]. intros [= <- <-].
    apply PeanoNat.Nat.leb_le in El. exists (firstn (S k) ts). rewrite firstn_skipn, firstn_length_le by exact El. repeat split.
    destruct ts; [cbn in El; lia|discriminate].
  Qed.
  Lemma inv_expr ps i r b : sm (PV FExpr :: ps) i r b ->
    exists e i' b', i = e ++ i' /\ (stops [COMMA] i' -> an_expr C e) /\ b = BToks e :: b' /\ sm ps i' r b'.
  Proof.
    intros H. inversion H as [| | |f ps' t i0 i' r' v b' H1 H2 H3| |]; subst.
    destruct (take_inv _ _ _ _ H2) as (e & E & -> & Hn & He). exists e, i', b'. split; [exact E|]. split; [|auto].
    intros Hs. apply (expr_stops e i' Hs). congruence.
  Qed.
  Lemma inv_path ps i r b : sm (PV FPath :: ps) i r b ->
    exists e i' b', i = e ++ i' /\ (stops [COMMA] i' -> a_path C e) /\ b = BToks e :: b' /\ sm ps i' r b'.
  Proof.
    intros H. inversion H as [| | |f ps' t i0 i' r' v b' H1 H2 H3| |]; subst.
    destruct (take_inv _ _ _ _ H2) as (e & E & -> & Hn & He). exists e, i', b'. split; [exact E|]. split; [|auto].
    intros Hs. apply (path_stops e i' Hs). congruence.
  Qed.
  Lemma inv_tt ps i r b : sm (PV FTt :: ps) i r b -> exists t i' b', i = t :: i' /\ b = BToks [t] :: b' /\ sm ps i' r b'.
  Proof. intros H. inversion H as [| | |f ps' t i0 i' r' v b' H1 H2 H3| |]; subst. injection H2 as <- <-. eauto 6. Qed.
  Lemma inv_opt q ps i r b : sm (opt q :: ps) i r b ->
    (exists b', b = BRep [] :: b' /\ sm ps i r b') \/
    (exists i' b1 b', sm q i i' b1 /\ b = BRep [b1] :: b' /\ sm ps i' r b').
  Proof.
    intros H. inversion H as [| | | | |q' s op ps' i0 i' r' l b' H1 H2]; subst; [left; eauto|]. right.
    inversion H1; subst; [eauto 7|congruence].
  Qed.
  Lemma rounds_tt op i r l : rounds [PV FTt] None op i r l -> exists ts, i = ts ++ r /\ l = tt_rounds ts /\ ts <> [].
  Proof.
    intros H. remember [PV FTt] as q eqn:Eq. remember (@None tree) as s eqn:Es.
    induction H as [q s op i r b H|q t op i i' r b l Ho H H' IH|q op i i' r b l Ho H H' IH]; subst; [| discriminate|].
    - apply inv_tt in H. destruct H as (t & i' & b' & -> & -> & H). apply inv_nil in H. destruct H as [-> ->].
      exists [t]. repeat split. discriminate.
    - apply inv_tt in H. destruct H as (t & i2 & b' & -> & -> & H). apply inv_nil in H. destruct H as [-> ->].
      destruct (IH eq_refl eq_refl) as (ts & -> & -> & _). exists (t :: ts). repeat split. discriminate.
  Qed.
  Lemma inv_tts i b : sm [tts] i [] b -> b = [BRep (tt_rounds i)].
  Proof.
    intros H. inversion H as [| | | |q s op ps i0 r b' H1 H2|q' s op ps' i0 i' r' l b' H1 H2]; subst.
    - apply inv_nil in H2. destruct H2 as [-> ->]. reflexivity.
    - apply inv_nil in H2. destruct H2 as [-> ->]. destruct (rounds_tt _ _ _ _ H1) as (ts & -> & -> & _). now rewrite app_nil_r.
  Qed.
  Lemma inv_tts1 i b : sm [tts1] i [] b -> b = [BRep (tt_rounds i)] /\ i <> [].
  Proof.
    intros H. inversion H as [| | | |q s op ps i0 r b' H1 H2|q' s op ps' i0 i' r' l b' H1 H2]; subst.
    - congruence.
    - apply inv_nil in H2. destruct H2 as [-> ->]. destruct (rounds_tt _ _ _ _ H1) as (ts & -> & -> & Hne). now rewrite app_nil_r.
  Qed.
  Lemma inv_opt_comma i b : sm [opt_comma] i [] b -> i = [] \/ i = [COMMA].
  Proof.
    intros H. apply inv_opt in H. destruct H as [(b' & -> & H)|(i' & b1 & b' & H1 & -> & H)].
    - apply inv_nil in H. left. tauto.
    - apply inv_nil in H. destruct H as [-> ->]. apply inv_tok in H1. destruct H1 as (i1 & -> & H1). apply inv_nil in H1. destruct H1 as [-> ->]. now right.
  Qed.

  (** *** Repetitions with commas *)
  Section Rounds.
    Variables (q : list pat) (P : list tree -> list binding -> Prop).
    Hypothesis HP : forall i rest b, sm q i rest b -> stops [COMMA] rest -> exists its, i = its ++ rest /\ P its b.
    Lemma rounds_commas op i r l : rounds q (Some COMMA) op i r l -> stops [COMMA] r ->
      exists ts, i = ts ++ r /\ sep_list COMMA P ts l.
    Proof.
      intros H. remember (Some COMMA) as s eqn:Es. revert HP.
      induction H as [q' s op i r b H|q' t op i i' r b l Ho H H' IH|q' op i i' r b l Ho H H' IH]; intros HP0 Hs; [| |discriminate].
      - destruct (HP0 _ _ _ H Hs) as (its & -> & Hi). exists its. split; [reflexivity|now apply sl_last].
      - injection Es as ->. destruct (IH eq_refl HP0 Hs) as (ts & -> & Hl).
        destruct (HP0 _ _ _ H) as (its & -> & Hi); [right; eexists _, _; split; [reflexivity|now left]|].
        exists (its ++ COMMA :: ts). split; [now rewrite <- app_assoc|]. now apply sl_more.
    Qed.
    Lemma sep_comma ts l : sep_list COMMA P ts l -> comma_list P ts l /\ comma_list P (ts ++ [COMMA]) l.
    Proof.
      induction 1 as [ts b H|ts b rest l H Hl [IH1 IH2]].
      - split; [now apply cl_last|]. apply cl_more; [assumption|constructor].
      - split; [now apply cl_more|]. rewrite <- app_assoc. now apply cl_more.
    Qed.
    Lemma inv_list i b : sm [sep_by_commas q; opt_comma] i [] b -> exists l c, b = [BRep l; BRep c] /\ loose_list P i l.
    Proof.
      intros H. inversion H as [| | | |q0 s op ps i0 r b' H1 H2|q' s op ps' i0 i' r' l b' H1 H2]; subst.
      - pose proof H2 as H3. apply inv_opt_comma in H2. apply inv_opt in H3.
        assert (exists c, b' = [BRep c]) as [c ->].
        { destruct H3 as [(b2 & -> & H3)|(i' & b1 & b2 & _ & -> & H3)]; apply inv_nil in H3; destruct H3 as [_ ->]; eauto. }
        exists [], c. split; [reflexivity|]. destruct H2 as [->| ->]; [left; constructor|now right].
      - pose proof H2 as H3. apply inv_opt_comma in H2. apply inv_opt in H3.
        assert (exists c, b' = [BRep c]) as [c ->].
        { destruct H3 as [(b2 & -> & H3)|(i2 & b1 & b2 & _ & -> & H3)]; apply inv_nil in H3; destruct H3 as [_ ->]; eauto. }
        exists l, c. split; [reflexivity|].
        destruct (rounds_commas _ _ _ _ H1) as (ts & -> & Hl).
        { destruct H2 as [->| ->]; [now left|right; eexists _, _; split; [reflexivity|now left]]. }
        left. destruct (sep_comma _ _ Hl). destruct H2 as [->| ->]; [now rewrite app_nil_r|assumption].
    Qed.
    Lemma inv_strict i b : sm [sep_by_commas q] i [] b -> exists l, b = [BRep l] /\ strict_list P i l.
    Proof.
      intros H. inversion H as [| | | |q0 s op ps i0 r b' H1 H2|q' s op ps' i0 i' r' l b' H1 H2]; subst.
      - apply inv_nil in H2. destruct H2 as [-> ->]. exists []. split; [reflexivity|now right].
      - apply inv_nil in H2. destruct H2 as [-> ->]. exists l. split; [reflexivity|]. left.
        destruct (rounds_commas _ _ _ _ H1) as (ts & -> & Hl); [now left|]. now rewrite app_nil_r.
    Qed.
  End Rounds.

  (** ** Rules *)
  Lemma rule_hit {X} (r : rule X) rs ts b : matches (lhs r) ts = Match b -> match_rules C (r :: rs) ts = rhs r b.
  Proof. intros H. unfold match_rules. cbn [first_rule]. now rewrite H. Qed.
  Lemma rule_skip {X} (r : rule X) rs ts : matches (lhs r) ts = NoMatch -> match_rules C (r :: rs) ts = match_rules C rs ts.
  Proof. intros H. unfold match_rules. cbn [first_rule]. now rewrite H. Qed.
  Lemma rules_sound {X} (rs : list (rule X)) ts x : match_rules C rs ts = Some x ->
    exists before r after b, rs = before ++ r :: after /\ (forall r', In r' before -> matches (lhs r') ts = NoMatch) /\
      sm (lhs r) ts [] b /\ rhs r b = Some x.
  Proof. apply first_rule_sound. Qed.
  Lemma rules_in {X} (rs : list (rule X)) ts x : match_rules C rs ts = Some x -> exists r b, In r rs /\ sm (lhs r) ts [] b /\ rhs r b = Some x.
  Proof.
    intros H. destruct (rules_sound _ _ _ H) as (before & r & after & b & -> & _ & Hs & Hx). exists r, b. split; [|auto].
    apply in_or_app. right. now left.
  Qed.

  (** *** Lists eaten item by item *)
  Section Munch.
    Variables (X : Type) (rs : list (rule (munched X))) (item : list tree -> X -> Prop).
    Hypothesis Hstop : forall ts, match_rules C rs ts = Some Stop -> ts = [] \/ ts = [COMMA].
    Hypothesis Hmore : forall ts x rest, match_rules C rs ts = Some (More x rest) -> exists its, ts = its ++ COMMA :: rest /\ item its x.
    Lemma munch_sound n : forall ts xs, munch_rules C n rs (ts ++ [COMMA]) = Some xs -> comma_list item ts xs.
    Proof.
      induction n as [|n IH]; intros ts xs H; [discriminate|]. cbn [munch_rules] in H.
      destruct (match_rules C rs (ts ++ [COMMA])) as [[|x rest]|] eqn:E; [| |discriminate].
      - injection H as <-. destruct (Hstop _ E) as [E1|E1]; [now destruct ts|]. destruct ts as [|t ts]; [constructor|].
        injection E1 as _ E1. now destruct ts.
      - destruct (munch_rules C n rs rest) as [xs'|] eqn:Em; [|discriminate]. injection H as <-.
        destruct (Hmore _ _ _ E) as (its & E1 & Hi).
        destruct rest as [|t rest _] using rev_ind.
        + apply app_inj_tail in E1. destruct E1 as [-> _]. 
          assert (xs' = []) as ->.
          { destruct n as [|n]; [discriminate|]. cbn [munch_rules] in Em. destruct (match_rules C rs []) as [[|y r]|] eqn:E0; [now injection Em as <-| |discriminate].
            destruct (Hmore _ _ _ E0) as (its0 & E2 & _). now destruct its0. }
          now apply cl_last.
        + change (COMMA :: rest ++ [t]) with ((COMMA :: rest) ++ [t]) in E1. rewrite app_assoc in E1. apply app_inj_tail in E1. destruct E1 as [-> <-].
          apply cl_more; [assumption|]. now apply IH.
    Qed.
    Hypothesis Hend : match_rules C rs [] = Some Stop.
    Hypothesis Hend' : match_rules C rs [COMMA] = Some Stop.
    Hypothesis Hitem : forall its x rest, item its x -> match_rules C rs (its ++ COMMA :: rest) = Some (More x rest).
    Lemma munch_complete ts xs : comma_list item ts xs -> forall n, length ts + 1 < n -> munch_rules C n rs (ts ++ [COMMA]) = Some xs.
    Proof.
      clear Hstop Hmore. induction 1 as [|ts x Hx|ts x rest xs Hx Hl IH]; intros [|n] Hn; try lia; cbn [munch_rules].
      - cbn [app]. now rewrite Hend'.
      - rewrite (Hitem _ _ [] Hx). destruct n as [|n]; [lia|]. cbn [munch_rules]. now rewrite Hend.
      - rewrite <- app_assoc. cbn [app]. rewrite (Hitem _ _ (rest ++ [COMMA]) Hx).
        rewrite IH; [reflexivity|]. rewrite app_length in Hn. cbn in Hn. lia.
    Qed.
    Lemma munch_spec ts xs : munch_all C rs ts = Some xs <-> comma_list item ts xs.
    Proof. split; [apply munch_sound|]. intros H. apply munch_complete; [assumption|lia]. Qed.
  End Munch.

  (** *** [key: value, ..] *)
  Notation DONE ts := (stops [COMMA] ts).
  Lemma stops_comma rest : DONE (COMMA :: rest).
  Proof. right. eexists _, _. split; [reflexivity|now left]. Qed.
  Lemma stops_end : DONE []. Proof. now left. Qed.
  Lemma goes_kw s cur k ts r : Goes [(cur, k)] ts r -> Goes [(cur, KP (kw s) :: k)] (tk_id s :: ts) r.
  Proof. apply goes_tok. discriminate. Qed.
  Lemma goes_pu s cur k ts r : Goes [(cur, k)] ts r -> Goes [(cur, KP (pu s) :: k)] (tk_pu s :: ts) r.
  Proof. apply goes_tok. discriminate. Qed.
  Lemma goes_other cur rest : Goes [(cur, [KP tts])] rest (Match (rev cur ++ [BRep (tt_rounds rest)])).
  Proof. apply goes_tts. Qed.
  Lemma goes_comma_other cur rest : Goes [(cur, [KP (pu ","); KP tts])] (COMMA :: rest) (Match (rev cur ++ [BRep (tt_rounds rest)])).
  Proof. apply goes_pu, goes_other. Qed.
  Lemma goes_braced cur k p ts r : Goes [(BRep (tt_rounds p) :: cur, k)] ts r -> Goes [(cur, KP (PG Brace [tts]) :: k)] (TkGr Brace p :: ts) r.
  Proof. intros H. eapply goes_grp; [apply (goes_other [])|exact H]. Qed.
  Lemma goes_braced1 cur k p ts r : p <> [] -> Goes [(BRep (tt_rounds p) :: cur, k)] ts r ->
    Goes [(cur, KP (PG Brace [tts1]) :: k)] (TkGr Brace p :: ts) r.
  Proof. intros Hp H. eapply goes_grp; [apply (goes_tts1 _ _ _ []); exact Hp|exact H]. Qed.

  Lemma key_expr key e rest : an_expr C e ->
    matches [kw key; pu ":"; PV FExpr; pu ","; tts] (tk_id key :: COLON_TK :: e ++ COMMA :: rest) = Match [BToks e; BRep (tt_rounds rest)].
  Proof. intros He. apply matches_goes. cbn [map]. apply goes_kw, goes_pu, goes_expr; [exact He|apply stops_comma|apply goes_comma_other]. Qed.
  Lemma key_path key e rest : a_path C e ->
    matches [kw key; pu ":"; PV FPath; pu ","; tts] (tk_id key :: COLON_TK :: e ++ COMMA :: rest) = Match [BToks e; BRep (tt_rounds rest)].
  Proof. intros He. apply matches_goes. cbn [map]. apply goes_kw, goes_pu, goes_path; [exact He|apply stops_comma|apply goes_comma_other]. Qed.
  Lemma key_ident key n rest : a_name n ->
    matches [kw key; pu ":"; PV FIdent; pu ","; tts] (tk_id key :: COLON_TK :: TkId n :: COMMA :: rest) = Match [BId n; BRep (tt_rounds rest)].
  Proof. intros Hn. apply matches_goes. cbn [map]. apply goes_kw, goes_pu, goes_ident; [exact Hn|apply goes_comma_other]. Qed.
  Lemma key_lit key ts v rest : lit_form ts v ->
    matches [kw key; pu ":"; PV FLit; pu ","; tts] (tk_id key :: COLON_TK :: ts ++ COMMA :: rest) = Match [BLit v; BRep (tt_rounds rest)].
  Proof. intros Hv. apply matches_goes. cbn [map]. apply goes_kw, goes_pu. eapply goes_literal; [exact Hv|apply goes_comma_other]. Qed.
  Lemma key_braces key p rest :
    matches [kw key; pu ":"; PG Brace [tts]; pu ","; tts] (tk_id key :: COLON_TK :: TkGr Brace p :: COMMA :: rest) =
    Match [BRep (tt_rounds p); BRep (tt_rounds rest)].
  Proof. apply matches_goes. cbn [map]. apply goes_kw, goes_pu, goes_braced, goes_comma_other. Qed.
  (** another key *)
  Lemma key_not key t ps ts : token_eqb (tk_id key) t = false -> matches (kw key :: ps) (t :: ts) = NoMatch.
  Proof. intros H. apply matches_goes. cbn [map]. now apply goes_tok_not. Qed.
  Lemma key_end key ps : matches (kw key :: ps) [] = NoMatch.
  Proof. apply matches_goes. cbn [map]. apply goes_tok_end. Qed.
  Lemma stop_end : matches [opt_comma] [] = Match [BRep []].
  Proof. reflexivity. Qed.
  Lemma stop_comma : matches [opt_comma] [COMMA] = Match [BRep [[]]].
  Proof. reflexivity. Qed.

  Lemma inv_comma_other i b : sm [pu ","; tts] i [] b -> exists rest, i = COMMA :: rest /\ b = [BRep (tt_rounds rest)].
  Proof. intros H. apply inv_tok in H. destruct H as (rest & -> & H). apply inv_tts in H. eauto. Qed.
  Lemma inv_key_expr key ts b : sm [kw key; pu ":"; PV FExpr; pu ","; tts] ts [] b ->
    exists e rest, ts = (tk_id key :: COLON_TK :: e) ++ COMMA :: rest /\ an_expr C e /\ b = [BToks e; BRep (tt_rounds rest)].
  Proof.
    intros H. apply inv_tok in H. destruct H as (i1 & -> & H). apply inv_tok in H. destruct H as (i2 & -> & H).
    apply inv_expr in H. destruct H as (e & i3 & b' & -> & He & -> & H). apply inv_comma_other in H. destruct H as (rest & -> & ->).
    exists e, rest. split; [reflexivity|]. split; [apply He, stops_comma|reflexivity].
  Qed.
  Lemma inv_key_path key ts b : sm [kw key; pu ":"; PV FPath; pu ","; tts] ts [] b ->
    exists e rest, ts = (tk_id key :: COLON_TK :: e) ++ COMMA :: rest /\ a_path C e /\ b = [BToks e; BRep (tt_rounds rest)].
  Proof.
    intros H. apply inv_tok in H. destruct H as (i1 & -> & H). apply inv_tok in H. destruct H as (i2 & -> & H).
    apply inv_path in H. destruct H as (e & i3 & b' & -> & He & -> & H). apply inv_comma_other in H. destruct H as (rest & -> & ->).
    exists e, rest. split; [reflexivity|]. split; [apply He, stops_comma|reflexivity].
  Qed.
  Lemma inv_key_ident key ts b : sm [kw key; pu ":"; PV FIdent; pu ","; tts] ts [] b ->
    exists n rest, ts = [tk_id key; COLON_TK; TkId n] ++ COMMA :: rest /\ a_name n /\ b = [BId n; BRep (tt_rounds rest)].
  Proof.
    intros H. apply inv_tok in H. destruct H as (i1 & -> & H). apply inv_tok in H. destruct H as (i2 & -> & H).
    apply inv_ident in H. destruct H as (n & i3 & b' & -> & Hn & -> & H). apply inv_comma_other in H. destruct H as (rest & -> & ->).
    exists n, rest. auto.
  Qed.
  Lemma inv_key_lit key ts b : sm [kw key; pu ":"; PV FLit; pu ","; tts] ts [] b ->
    exists l v rest, ts = (tk_id key :: COLON_TK :: l) ++ COMMA :: rest /\ lit_form l v /\ b = [BLit v; BRep (tt_rounds rest)].
  Proof.
    intros H. apply inv_tok in H. destruct H as (i1 & -> & H). apply inv_tok in H. destruct H as (i2 & -> & H).
    apply inv_lit in H. destruct H as (l & v & i3 & b' & -> & Hv & -> & H). apply inv_comma_other in H. destruct H as (rest & -> & ->).
    exists l, v, rest. auto.
  Qed.
  Lemma inv_key_braces key ts b : sm [kw key; pu ":"; PG Brace [tts]; pu ","; tts] ts [] b ->
    exists p rest, ts = [tk_id key; COLON_TK; TkGr Brace p] ++ COMMA :: rest /\ b = [BRep (tt_rounds p); BRep (tt_rounds rest)].
  Proof.
    intros H. apply inv_tok in H. destruct H as (i1 & -> & H). apply inv_tok in H. destruct H as (i2 & -> & H).
    apply inv_grp in H. destruct H as (p & i3 & b1 & b2 & -> & H1 & H & ->). apply inv_tts in H1. subst b1.
    apply inv_comma_other in H. destruct H as (rest & -> & ->). exists p, rest. auto.
  Qed.
  Lemma str_lit_form ts v s : lit_form ts v -> str_lit v = Some s -> ts = [TkLit (TlStr s)].
  Proof. intros [[]|b|l] H; try discriminate. now injection H as ->. Qed.
  Lemma bool_lit_form ts v b : lit_form ts v -> bool_lit v = Some b -> bool_literal ts b.
  Proof. intros [[]|b'|l] H; try discriminate. now injection H as ->. Qed.
End Facts.
