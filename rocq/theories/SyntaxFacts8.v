(** Facts about the rules of [describe_type!]. *)
From Verif Require Import Match MatchFacts MatchFacts2 MatchFacts3 SyntaxSpec SyntaxFacts SyntaxFacts2 SyntaxFacts3.
Local Open Scope string_scope. Local Open Scope list_scope.

Lemma many_within {X} (item : list tree -> X -> Prop) ts xs : many item ts xs -> many (fun t x => item t x /\ tokens t <= tokens ts) ts xs.
Proof.
  assert (W : forall (P : list tree -> X -> Prop) n m ts xs, n <= m -> many (fun t x => P t x /\ tokens t <= n) ts xs -> many (fun t x => P t x /\ tokens t <= m) ts xs).
  { intros P n m us ys Hle H. induction H as [|us x rest ys [Hx Ht] Hl IH]; [constructor|apply mn_more]; auto; split; auto; lia. }
  induction 1 as [|ts x rest xs Hx Hl IH]; [constructor|].
  apply mn_more; [split; [exact Hx|rewrite tokens_app; lia]|]. eapply W; [|exact IH]. rewrite tokens_app. lia.
Qed.
Lemma many_map {X Y} (P : list tree -> X -> Prop) (f : X -> option Y) (item : list tree -> Y -> Prop) ts l xs :
  (forall t b x, P t b -> f b = Some x -> item t x) -> many P ts l -> all_some f l = Some xs -> many item ts xs.
Proof.
  intros Hi H. revert xs. induction H as [|ts b rest l Hb Hl IH]; intros xs Hx; cbn in Hx.
  - injection Hx as <-. constructor.
  - destruct (f b) eqn:E; [|discriminate]. destruct (all_some f l); [|discriminate]. injection Hx as <-. apply mn_more; eauto.
Qed.

(** nothing, or one of these words *)
Definition heads (ks : list String.string) (ts : list tree) : Prop := ts = [] \/ exists k ts', In k ks /\ ts = tk_id k :: ts'.
Definition none_is (key : String.string) (ks : list String.string) : bool := forallb (fun k => negb (str_eqb (u key) (u k))) ks.

Section Facts.
  Variable C : caller.
  Notation Goes := (Goes (begins C) (expr_at C) (path_at C)).
  Notation Runs := (Runs (begins C) (expr_at C) (path_at C)).
  Notation matches := (matches (begins C) (expr_at C) (path_at C)).
  Notation sm := (sm (begins C) (expr_at C) (path_at C)).
  Notation rounds := (rounds (begins C) (expr_at C) (path_at C)).
  Notation dead := (dead (begins C)).
  Notation item_ok := (item_ok (begins C) (expr_at C) (path_at C)).
  Notation item_then := (item_then (begins C) (expr_at C) (path_at C)).

  (** *** literals *)
  Lemma literal_spec ts s : literal C ts s <-> exists v, lit_form ts v /\ literal_text C v = Some s.
  Proof.
    split.
    - intros [s'| | |l s' Hl Ht|l s' Ht].
      + exists (VStr s'). split; [exact (lf_lit (TlStr s'))|reflexivity].
      + exists (VBool true). split; [exact (lf_bool true)|reflexivity].
      + exists (VBool false). split; [exact (lf_bool false)|reflexivity].
      + exists (lit_value l). split; [exact (lf_lit l)|]. destruct l as [s0|n|t]; [now destruct (Hl s0)|exact Ht|exact Ht].
      + exists (VNeg l). split; [constructor|exact Ht].
    - intros (v & Hv & Ht). destruct Hv as [l|b|l].
      + destruct l as [s0|n|t]; [injection Ht as <-; constructor|apply lt_other; [discriminate|exact Ht]|apply lt_other; [discriminate|exact Ht]].
      + injection Ht as <-. destruct b; constructor.
      + now apply lt_negative.
  Qed.
  Lemma literal_item its s : literal C its s -> exists b, item_ok [COMMA] [COMMA] (PV FLit) [] its b /\ text_lit C b = Some s.
  Proof.
    intros H. apply literal_spec in H. destruct H as (v & Hv & Ht). exists [BLit v]. split; [|exact Ht]. split.
    - destruct Hv as [l|[|]|l]; (eexists _, _; split; [reflexivity|]; intros a [<-|[]]; reflexivity).
    - intros K rest r _ _ Hg. cbn [app map]. now apply (goes_literal C its v).
  Qed.
  Lemma literal_sound i rest b x : sm [PV FLit] i rest b -> stops [COMMA] rest -> text_lit C b = Some x -> exists its, i = its ++ rest /\ literal C its x.
  Proof.
    intros Hm _ Hx. apply inv_lit in Hm. destruct Hm as (ts & v & i' & b' & -> & Hv & -> & Hm). apply inv_nil in Hm. destruct Hm as [-> ->].
    exists ts. split; [reflexivity|]. apply literal_spec. eauto.
  Qed.

  (** *** optional keys *)
  Lemma optional_heads {X} key ks (R : list tree -> X -> Prop) ts o rest : optional key R ts o -> heads ks rest -> heads (key :: ks) (ts ++ rest).
  Proof.
    intros Ho Hr. destruct o as [x|].
    - destruct Ho as (v & -> & _). right. eexists _, _. split; [now left|reflexivity].
    - hnf in Ho. subst ts. destruct Hr as [->|(k & ts' & Hin & ->)]; [now left|]. right. exists k, ts'. split; [now right|reflexivity].
  Qed.
  Lemma heads_nil : heads [] [].
  Proof. now left. Qed.
  Lemma heads_key k ks ts : In k ks -> heads ks (tk_id k :: ts).
  Proof. right. eauto. Qed.
  Definition next_ok (key : String.string) (K : list kont) : Prop := forall cur, exists l, closure 10 (cur, K) = Some l /\ dead l (tk_id key).
  Lemma opt_kw_out key q cur K ks rest r : next_ok key K -> heads ks rest -> none_is key ks = true -> Goes [(BRep [] :: cur, K)] rest r ->
    Goes [(cur, KP (opt (kw key :: q)) :: K)] rest r.
  Proof.
    intros HK Hr Hn H. destruct (HK (BRep [] :: cur)) as (l & Hl & _). destruct Hr as [->|(k & rest' & Hin & ->)].
    - apply (goes_eq C _ _ _ _ Hl) in H. eexists. split; [apply opt_closed; [exact I|exact Hl]|]. intros n Hn'. specialize (H n Hn').
      destruct n as [|n]; [lia|]. cbn [run] in *. unfold ends in *. rewrite flat_map_app. cbn [ready_of kw flat_map app]. now rewrite app_nil_r.
    - eapply opt_out; [exact I|exact Hl| |exact H]. apply dead_tok. unfold none_is in Hn. rewrite forallb_forall in Hn. specialize (Hn k Hin).
      apply negb_true_iff in Hn. exact Hn.
  Qed.
  Lemma opt_kw_in key q vs b cur K rest r : next_ok key K ->
    (forall K' rest' r', Goes [(rev b, K')] rest' r' -> Goes [([], map KP q ++ K')] (vs ++ rest') r') ->
    Goes [(BRep [b] :: cur, K)] rest r -> Goes [(cur, KP (opt (kw key :: pu ":" :: q)) :: K)] (tk_id key :: COLON_TK :: vs ++ rest) r.
  Proof.
    intros HK Hi H. destruct (HK (BRep [] :: cur)) as (l & Hl & Hd). eapply opt_in; [exact I|exact Hl|exact Hd|].
    cbn [map app]. apply goes_kw, goes_pu, Hi. destruct (HK (BRep [b] :: cur)) as (l1 & Hl1 & _).
    eapply opt_done; rewrite rev_involutive; [exact Hl1|exact H].
  Qed.
  Lemma opt_key_goes key ks ds d : optional key (literal C) ds d -> none_is key ks = true -> exists l, opt_text C l = Some d /\
    forall cur K rest r, next_ok key K -> heads ks rest -> Goes [(BRep l :: cur, K)] rest r -> Goes [(cur, KP (opt_key key) :: K)] (ds ++ rest) r.
  Proof.
    intros Ho Hn. destruct d as [s|].
    - destruct Ho as (v & -> & Hv). apply literal_spec in Hv. destruct Hv as (x & Hx & Hs). exists [[BLit x]]. split; [cbn; now rewrite Hs|].
      intros cur K rest r HK Hr H. cbn [app]. unfold opt_key. apply (opt_kw_in key [PV FLit] v [BLit x]); [exact HK| |exact H].
      intros K' rest' r' Hg. cbn [map app]. now apply (goes_literal C v x).
    - hnf in Ho. subst ds. exists []. split; [reflexivity|]. intros cur K rest r HK Hr H. cbn [app]. unfold opt_key. now apply (opt_kw_out key _ cur K ks).
  Qed.
  Lemma opt_variants_goes ks vs o : optional "variants" (variants_form C) vs o -> none_is "variants" ks = true -> exists l, opt_texts C l = Some o /\
    forall cur K rest r, next_ok "variants" K -> heads ks rest -> Goes [(BRep l :: cur, K)] rest r ->
      Goes [(cur, KP (opt [kw "variants"; pu ":"; PG Bracket [sep_by_commas [PV FLit]]]) :: K)] (vs ++ rest) r.
  Proof.
    intros Ho Hn. destruct o as [s|].
    - destruct Ho as (v & -> & v' & -> & Hv). destruct (strict_complete C _ (PV FLit) [] (text_lit C) _ I literal_item _ _ Hv) as (l & Hg & Hl).
      exists [[BRep l]]. split; [cbn; now rewrite Hl|].
      intros cur K rest r HK Hr H. cbn [app]. apply (opt_kw_in "variants" [PG Bracket [sep_by_commas [PV FLit]]] [TkGr Bracket v'] [BRep l]); [exact HK| |exact H].
      intros K' rest' r' Hg'. cbn [map app]. eapply goes_grp; [exact Hg|exact Hg'].
    - hnf in Ho. subst vs. exists []. split; [reflexivity|]. intros cur K rest r HK Hr H. cbn [app]. now apply (opt_kw_out "variants" _ cur K ks).
  Qed.
  Lemma inv_opt_key key ps i r b : sm (opt_key key :: ps) i r b -> exists ds l i' b', i = ds ++ i' /\ b = BRep l :: b' /\ sm ps i' r b' /\
    forall d, opt_text C l = Some d -> optional key (literal C) ds d.
  Proof.
    intros H. apply inv_opt in H. destruct H as [(b' & -> & H)|(i' & b1 & b' & H1 & -> & H)].
    - exists [], [], i, b'. repeat split; [exact H|]. now intros d [= <-].
    - apply inv_tok in H1. destruct H1 as (i1 & -> & H1). apply inv_tok in H1. destruct H1 as (i2 & -> & H1).
      apply inv_lit in H1. destruct H1 as (ts & v & i3 & b3 & -> & Hv & -> & H1). apply inv_nil in H1. destruct H1 as [-> ->].
      exists (tk_id key :: COLON_TK :: ts), [[BLit v]], i', b'. repeat split; [exact H|]. intros d Hd. apply option_map_inv in Hd. destruct Hd as (s & Hs & ->).
      exists ts. split; [reflexivity|]. apply literal_spec. eauto.
  Qed.
  Lemma inv_opt_variants ps i r b : sm (opt [kw "variants"; pu ":"; PG Bracket [sep_by_commas [PV FLit]]] :: ps) i r b ->
    exists vs l i' b', i = vs ++ i' /\ b = BRep l :: b' /\ sm ps i' r b' /\ forall o, opt_texts C l = Some o -> optional "variants" (variants_form C) vs o.
  Proof.
    intros H. apply inv_opt in H. destruct H as [(b' & -> & H)|(i' & b1 & b' & H1 & -> & H)].
    - exists [], [], i, b'. repeat split; [exact H|]. now intros d [= <-].
    - apply inv_tok in H1. destruct H1 as (i1 & -> & H1). apply inv_tok in H1. destruct H1 as (i2 & -> & H1).
      apply inv_grp in H1. destruct H1 as (v & i3 & b2 & b3 & -> & H1 & H2 & ->). apply inv_nil in H2. destruct H2 as [-> ->].
      destruct (strict_sound C _ (PV FLit) [] (text_lit C) (literal C) literal_sound _ _ H1) as (l & -> & Hl).
      exists [tk_id "variants"; COLON_TK; TkGr Bracket v], [[BRep l]], i', b'. repeat split; [exact H|]. intros o Ho. apply option_map_inv in Ho.
      destruct Ho as (s & Hs & ->). exists [TkGr Bracket v]. split; [reflexivity|]. exists v. split; [reflexivity|]. now apply Hl.
  Qed.

  (** *** repetitions without a separator *)
  Lemma rounds_many q (P : list tree -> list binding -> Prop) op i r l : (forall i r b, sm q i r b -> exists its, i = its ++ r /\ P its b) ->
    rounds q None op i r l -> exists ts, i = ts ++ r /\ many P ts l.
  Proof.
    intros HP H. remember (@None tree) as s eqn:Es. revert HP.
    induction H as [q s op i r b H|q t op i i' r b l Ho H H' IH|q op i i' r b l Ho H H' IH]; intros HP; [|discriminate|].
    - destruct (HP _ _ _ H) as (its & -> & Hi). exists its. split; [reflexivity|]. rewrite <- (app_nil_r its). apply mn_more; [exact Hi|constructor].
    - destruct (HP _ _ _ H) as (its & -> & Hi). destruct (IH eq_refl HP) as (ts & -> & Ht). exists (its ++ ts). split; [now rewrite app_assoc|]. now apply mn_more.
  Qed.
  Lemma inv_many q (P : list tree -> list binding -> Prop) i b : (forall i r b, sm q i r b -> exists its, i = its ++ r /\ P its b) ->
    sm [PR q None RStar] i [] b -> exists l, b = [BRep l] /\ many P i l.
  Proof.
    intros HP H. inversion H as [| | | |q0 s op ps i0 r b' H1 H2|q' s op ps' i0 i' r' l b' H1 H2]; subst.
    - apply inv_nil in H2. destruct H2 as [-> ->]. exists []. split; [reflexivity|constructor].
    - apply inv_nil in H2. destruct H2 as [-> ->]. destruct (rounds_many _ _ _ _ _ _ HP H1) as (ts & -> & Ht). exists l. split; [reflexivity|]. now rewrite app_nil_r.
  Qed.
  Lemma type_head ts d : type_form C ts d -> exists k rest, ts = tk_id k :: ARROW :: rest /\ a_name (u k) /\ u k <> u "link".
  Proof. intros []; (eexists _, _; split; [reflexivity|]; split; discriminate). Qed.

  Section Nested.
    Variable nested : list tree -> option describe.
    Section Sound.
      Hypothesis Hs : forall ts d, nested ts = Some d -> type_form C ts d.
      Lemma value_sound ts v : match_rules C (value_rules C nested) ts = Some v -> value_form C ts v.
      Proof.
        intros H. pose proof H as H0. apply rules_in in H. destruct H as (r & b & Hin & Hm & Hx). which_rule Hin; cbn [lhs rhs] in *.
        - apply inv_tok in Hm. destruct Hm as (i1 & -> & Hm). apply inv_tok in Hm. destruct Hm as (i2 & -> & Hm).
          apply inv_lit in Hm. destruct Hm as (l & x & i3 & b3 & -> & Hv & -> & Hm). apply inv_nil in Hm. destruct Hm as [-> ->].
          apply option_map_inv in Hx. destruct Hx as (s & Hs' & ->). apply (str_lit_form _ _ _ Hv) in Hs'. subst l. constructor.
        - apply inv_tok in Hm. destruct Hm as (i1 & -> & Hm). apply inv_tok in Hm. destruct Hm as (i2 & -> & Hm).
          apply inv_ident in Hm. destruct Hm as (n & i3 & b3 & -> & Hn & -> & Hm). apply inv_nil in Hm. destruct Hm as [-> ->].
          apply option_map_inv in Hx. destruct Hx as (s & Hs' & ->).
          assert (B : forall bb : bool, n <> u (if bb then "true" else "false")).
          { intros bb ->. revert H0. unfold value_rules.
            erewrite rule_hit; [|apply matches_goes; cbn [map lhs]; apply goes_kw, goes_pu, (goes_bool C bb), goes_done]. discriminate. }
          apply vf_variable; [|exact Hs']. repeat split; [exact Hn|exact (B true)|exact (B false)].
        - apply inv_ident in Hm. destruct Hm as (n & i3 & b3 & -> & Hn & -> & Hm). apply inv_tok in Hm. destruct Hm as (i1 & -> & Hm).
          apply inv_tts in Hm. subst b3. apply option_map_inv in Hx. destruct Hx as (d & Hd & ->). rewrite trees_tt in Hd. apply vf_inline. now apply Hs.
      Qed.
      Lemma property_sound i rest b x : sm [PV FIdent; opt [PG Bracket [PV FTt]]; pu ":"; PG Paren [tts]] i rest b ->
        property C nested b = Some x -> exists its, i = its ++ rest /\ property_form C its x.
      Proof.
        intros Hm Hx. apply inv_ident in Hm. destruct Hm as (n & i1 & b1 & -> & Hn & -> & Hm).
        assert (T : forall i b, sm [pu ":"; PG Paren [tts]] i rest b -> exists vs, i = COLON_TK :: TkGr Paren vs :: rest /\ b = [BRep (tt_rounds vs)]).
        { intros i b H. apply inv_tok in H. destruct H as (i2 & -> & H). apply inv_grp in H. destruct H as (vs & i3 & b3 & b4 & -> & H3 & H & ->).
          apply inv_tts in H3. subst b3. apply inv_nil in H. destruct H as [-> ->]. eauto. }
        apply inv_opt in Hm. destruct Hm as [(b2 & -> & Hm)|(i2 & b2 & b3 & H1 & -> & Hm)]; apply T in Hm; destruct Hm as (vs & -> & ->).
        - unfold property in Hx. rewrite trees_tt in Hx. cbn [required_mark] in Hx. destruct (match_rules C (value_rules C nested) vs) as [v|] eqn:E; [|discriminate].
          injection Hx as <-. exists [TkId n; COLON_TK; TkGr Paren vs]. split; [reflexivity|]. constructor; [exact Hn|now apply value_sound].
        - apply inv_grp in H1. destruct H1 as (l & i3 & b4 & b5 & -> & H1 & H2 & ->). apply inv_nil in H2. destruct H2 as [-> ->]. rewrite app_nil_r in Hx.
          apply inv_tt in H1. destruct H1 as (t & i4 & b6 & -> & -> & H1). apply inv_nil in H1. destruct H1 as [-> ->].
          unfold property in Hx. rewrite trees_tt in Hx. destruct t as [s| | |]; try discriminate. cbn [required_mark] in Hx.
          destruct (str_eqb_spec s (u "required")) as [Es|Es]; [|discriminate Hx]. rewrite Es. destruct (match_rules C (value_rules C nested) vs) as [v|] eqn:E; [|discriminate].
          injection Hx as <-. exists [TkId n; TkGr Bracket [tk_id "required"]; COLON_TK; TkGr Paren vs]. split; [reflexivity|]. constructor; [exact Hn|now apply value_sound].
      Qed.
      Ltac head H := apply inv_tok in H; let i := fresh "i" in destruct H as (i & -> & H); apply inv_tok in H; let i2 := fresh "i" in destruct H as (i2 & -> & H).
      Ltac inside H := head H; apply inv_grp in H; let H2 := fresh "Hnil" in destruct H as (g & i' & b1 & b2 & -> & H & H2 & ->); apply inv_nil in H2; destruct H2 as [-> ->]; rewrite app_nil_r in *.
      Lemma type_sound_step ts d : match_rules C (type_rules C nested) ts = Some d -> type_form C ts d.
      Proof.
        intros H. apply rules_in in H. destruct H as (r & b & Hin & Hm & Hx). which_rule Hin; cbn [lhs rhs] in *.
        - head Hm. apply inv_ident in Hm. destruct Hm as (n & i3 & b3 & -> & Hn & -> & Hm). apply inv_nil in Hm. destruct Hm as [-> ->].
          apply option_map_inv in Hx. destruct Hx as (m & Hm & ->). now constructor.
        - inside Hm. apply inv_opt_key in Hm. destruct Hm as (ds & l & i3 & b3 & -> & -> & Hm & Hd). head Hm.
          apply inv_ident in Hm. destruct Hm as (n & i4 & b4 & -> & Hn & -> & Hm). apply inv_nil in Hm. destruct Hm as [-> ->].
          destruct (opt_text C l) as [o|]; [|discriminate]. destruct (data_var C n) as [t|] eqn:E; [|discriminate]. injection Hx as <-.
          apply tf_raw_type; auto.
        - inside Hm. apply inv_opt_key in Hm. destruct Hm as (ds & l1 & i3 & b3 & -> & -> & Hm & Hd). apply inv_opt_key in Hm. destruct Hm as (fs & l2 & i4 & b4 & -> & -> & Hm & Hf).
          apply inv_opt_key in Hm. destruct Hm as (es & l3 & i5 & b5 & -> & -> & Hm & He). apply inv_opt_variants in Hm. destruct Hm as (vs & l4 & i6 & b6 & -> & -> & Hm & Hv).
          apply inv_nil in Hm. destruct Hm as [-> ->]. rewrite app_nil_r. destruct (opt_text C l1) as [d1|]; [|discriminate]. destruct (opt_text C l2) as [d2|]; [|discriminate].
          destruct (opt_text C l3) as [d3|]; [|discriminate]. destruct (opt_texts C l4) as [d4|]; [|discriminate]. injection Hx as <-. apply tf_string; auto.
        - inside Hm. apply inv_opt_key in Hm. destruct Hm as (ds & l1 & i3 & b3 & -> & -> & Hm & Hd). apply inv_opt_key in Hm. destruct Hm as (fs & l2 & i4 & b4 & -> & -> & Hm & Hf).
          apply inv_opt_key in Hm. destruct Hm as (es & l3 & i5 & b5 & -> & -> & Hm & He).
          apply inv_nil in Hm. destruct Hm as [-> ->]. rewrite app_nil_r. destruct (opt_text C l1) as [d1|]; [|discriminate]. destruct (opt_text C l2) as [d2|]; [|discriminate].
          destruct (opt_text C l3) as [d3|]; [|discriminate]. injection Hx as <-. apply tf_number; auto.
        - inside Hm. apply inv_opt_key in Hm. destruct Hm as (ds & l1 & i3 & b3 & -> & -> & Hm & Hd). apply inv_opt_key in Hm. destruct Hm as (fs & l2 & i4 & b4 & -> & -> & Hm & Hf).
          apply inv_opt_key in Hm. destruct Hm as (es & l3 & i5 & b5 & -> & -> & Hm & He).
          apply inv_nil in Hm. destruct Hm as [-> ->]. rewrite app_nil_r. destruct (opt_text C l1) as [d1|]; [|discriminate]. destruct (opt_text C l2) as [d2|]; [|discriminate].
          destruct (opt_text C l3) as [d3|]; [|discriminate]. injection Hx as <-. apply tf_integer; auto.
        - inside Hm. apply inv_opt_key in Hm. destruct Hm as (ds & l1 & i3 & b3 & -> & -> & Hm & Hd).
          apply inv_nil in Hm. destruct Hm as [-> ->]. rewrite app_nil_r. apply option_map_inv in Hx. destruct Hx as (o & Ho & ->). apply tf_boolean; auto.
        - inside Hm. apply inv_opt_key in Hm. destruct Hm as (ds & l1 & i3 & b3 & -> & -> & Hm & Hd). head Hm. apply inv_grp in Hm.
          destruct Hm as (vs & i4 & b4 & b5 & -> & Hm & H2 & ->). apply inv_nil in H2. destruct H2 as [-> ->]. apply inv_tts in Hm. subst b4. cbn [app] in Hx. rewrite trees_tt in Hx.
          destruct (opt_text C l1) as [o|]; [|discriminate]. destruct (match_rules C (value_rules C nested) vs) as [v|] eqn:E; [|discriminate]. injection Hx as <-.
          apply tf_array; [auto|now apply value_sound].
        - inside Hm. apply inv_opt_key in Hm. destruct Hm as (ds & l1 & i3 & b3 & -> & -> & Hm & Hd). head Hm. apply inv_grp in Hm.
          destruct Hm as (ps & i4 & b4 & b5 & -> & Hm & H2 & ->). apply inv_nil in H2. destruct H2 as [-> ->].
          apply (inv_many _ (fun its b => forall x, property C nested b = Some x -> property_form C its x)) in Hm.
          + destruct Hm as (l & -> & Hl). cbn [app] in Hx. destruct (opt_text C l1) as [o|]; [|discriminate].
            destruct (all_some (property C nested) l) as [xs|] eqn:E; [|discriminate]. injection Hx as <-. apply tf_object; [auto|]. eapply many_map; [|exact Hl|exact E]. auto.
          + intros i5 r5 b6 H6. destruct (property C nested b6) as [x|] eqn:E.
            * destruct (property_sound _ _ _ _ H6 E) as (its & -> & Hi). exists its. split; [reflexivity|]. congruence.
            * destruct (sm_prefix _ _ _ _ _ _ _ H6) as (its & ->). exists its. split; [reflexivity|]. discriminate.
      Qed.
    End Sound.
    Section Complete.
      Variable n : nat.
      Hypothesis Hc : forall ts d, tokens ts < n -> type_form C ts d -> nested ts = Some d.
      Lemma value_complete ts v : tokens ts < n -> value_form C ts v -> match_rules C (value_rules C nested) ts = Some v.
      Proof.
        intros Ht H. unfold value_rules. destruct H as [s|x s (Hx & H1 & H2) Hv|ts d Hd].
        - erewrite rule_hit; [|apply matches_goes; cbn [map lhs]; apply goes_kw, goes_pu, goes_lit, goes_done]. reflexivity.
        - rewrite rule_skip.
          + erewrite rule_hit; [|apply matches_goes; cbn [map lhs]; apply goes_kw, goes_pu, goes_ident; [exact Hx|apply goes_done]]. cbn [rhs rev app]. now rewrite Hv.
          + apply matches_goes. cbn [map lhs]. apply goes_kw, goes_pu, goes_frag_not. cbn [may_begin]. apply orb_false_iff. now split; apply str_eqb_neq.
        - destruct (type_head _ _ Hd) as (k & rest & -> & Hk & Hl). assert (E : token_eqb (tk_id "link") (tk_id k) = false).
          { cbn [token_eqb tk_id]. apply str_eqb_neq. congruence. }
          rewrite rule_skip by (now apply key_not). rewrite rule_skip by (now apply key_not).
          erewrite rule_hit; [|apply matches_goes; cbn [map lhs]; apply goes_ident; [exact Hk|]; apply goes_pu, goes_other]. cbn [rhs rev app]. rewrite trees_tt.
          unfold tk_id, ARROW in Hd. change (option_map DvInline (nested (tk_id k :: ARROW :: rest)) = Some (DvInline d)). now rewrite (Hc _ _ Ht Hd).
      Qed.
      Lemma property_ok its x : property_form C its x /\ tokens its <= n ->
        exists b, item_then (PV FIdent) [opt [PG Bracket [PV FTt]]; pu ":"; PG Paren [tts]] its b /\ property C nested b = Some x.
      Proof.
        intros [H Ht]. destruct H as [k vs v Hk Hv|k vs v Hk Hv]; rewrite !tokens_cons, !tokens_group in Ht.
        - exists [BId k; BRep []; BRep (tt_rounds vs)]. split; [split|].
          + eexists _, _. reflexivity.
          + intros K rest r Hg. cbn [app map]. apply goes_ident; [exact Hk|]. eapply opt_out; [exact I|reflexivity|repeat split|]. apply goes_pu.
            eapply goes_grp; [apply goes_other|exact Hg].
          + cbn [property required_mark]. rewrite trees_tt, (value_complete vs v); [reflexivity|lia|exact Hv].
        - exists [BId k; BRep [[BToks [tk_id "required"]]]; BRep (tt_rounds vs)]. split; [split|].
          + eexists _, _. reflexivity.
          + intros K rest r Hg. cbn [app map]. apply goes_ident; [exact Hk|]. eapply opt_in; [exact I|reflexivity|repeat split|]. cbn [map app].
            eapply goes_grp; [cbn [map]; apply goes_tt, goes_done|]. eapply opt_done; [reflexivity|]. apply goes_pu. eapply goes_grp; [apply goes_other|exact Hg].
          + cbn [property required_mark tk_id]. rewrite trees_tt, (value_complete vs v); [reflexivity|lia|exact Hv].
      Qed.
      Ltac to_rule := unfold type_rules, form; do 8 (try (rewrite rule_skip by (apply key_not; reflexivity))).
      Ltac ready := intros ?; eexists; split; [reflexivity|repeat split].
      Lemma type_complete_step ts d : tokens ts <= n -> type_form C ts d -> match_rules C (type_rules C nested) ts = Some d.
      Proof.
        intros Ht H. destruct H as [v m Hv Hm|ds d v t Hd Hv Hm|ds d fs f es e vs v Hd Hf He Hv|ds d fs f es e Hd Hf He|ds d fs f es e Hd Hf He|ds d Hd|ds d vs v Hd Hv|ds d ps l Hd Hl].
        - to_rule. erewrite rule_hit; [|apply matches_goes; cbn [map lhs]; apply goes_kw, goes_pu, goes_ident; [exact Hv|apply goes_done]]. cbn [rhs rev app]. now rewrite Hm.
        - to_rule. destruct (opt_key_goes "description" ["ident"] ds d Hd eq_refl) as (l & El & Hl). erewrite rule_hit; cycle 1.
          { apply matches_goes. cbn [map lhs]. apply goes_kw, goes_pu. eapply goes_grp; [|apply goes_done]. cbn [map].
            apply Hl; [ready|apply heads_key; now left|]. apply goes_kw, goes_pu, goes_ident; [exact Hv|apply goes_done]. }
          cbn [rhs rev app]. now rewrite El, Hm.
        - to_rule. destruct (opt_key_goes "description" ["format"; "example"; "variants"] ds d Hd eq_refl) as (l1 & E1 & H1).
          destruct (opt_key_goes "format" ["example"; "variants"] fs f Hf eq_refl) as (l2 & E2 & H2).
          destruct (opt_key_goes "example" ["variants"] es e He eq_refl) as (l3 & E3 & H3).
          destruct (opt_variants_goes [] vs v Hv eq_refl) as (l4 & E4 & H4).
          assert (V : heads ["variants"] vs) by (rewrite <- (app_nil_r vs); eapply optional_heads; [exact Hv|exact heads_nil]).
          assert (V2 : heads ["example"; "variants"] (es ++ vs)) by (eapply optional_heads; [exact He|exact V]).
          assert (V3 : heads ["format"; "example"; "variants"] (fs ++ es ++ vs)) by (eapply optional_heads; [exact Hf|exact V2]).
          erewrite rule_hit; cycle 1.
          { apply matches_goes. cbn [map lhs]. apply goes_kw, goes_pu. eapply goes_grp; [|apply goes_done]. cbn [map].
            apply H1; [ready|exact V3|]. apply H2; [ready|exact V2|]. apply H3; [ready|exact V|]. rewrite <- (app_nil_r vs). apply H4; [ready|exact heads_nil|]. apply goes_done. }
          cbn [rhs rev app]. now rewrite E1, E2, E3, E4.
        - to_rule. destruct (opt_key_goes "description" ["format"; "example"] ds d Hd eq_refl) as (l1 & E1 & H1).
          destruct (opt_key_goes "format" ["example"] fs f Hf eq_refl) as (l2 & E2 & H2).
          destruct (opt_key_goes "example" [] es e He eq_refl) as (l3 & E3 & H3).
          assert (V2 : heads ["example"] es) by (rewrite <- (app_nil_r es); eapply optional_heads; [exact He|exact heads_nil]).
          assert (V3 : heads ["format"; "example"] (fs ++ es)) by (eapply optional_heads; [exact Hf|exact V2]).
          erewrite rule_hit; cycle 1.
          { apply matches_goes. cbn [map lhs]. apply goes_kw, goes_pu. eapply goes_grp; [|apply goes_done]. cbn [map].
            apply H1; [ready|exact V3|]. apply H2; [ready|exact V2|]. rewrite <- (app_nil_r es). apply H3; [ready|exact heads_nil|]. apply goes_done. }
          cbn [rhs rev app]. now rewrite E1, E2, E3.
        - to_rule. destruct (opt_key_goes "description" ["format"; "example"] ds d Hd eq_refl) as (l1 & E1 & H1).
          destruct (opt_key_goes "format" ["example"] fs f Hf eq_refl) as (l2 & E2 & H2).
          destruct (opt_key_goes "example" [] es e He eq_refl) as (l3 & E3 & H3).
          assert (V2 : heads ["example"] es) by (rewrite <- (app_nil_r es); eapply optional_heads; [exact He|exact heads_nil]).
          assert (V3 : heads ["format"; "example"] (fs ++ es)) by (eapply optional_heads; [exact Hf|exact V2]).
          erewrite rule_hit; cycle 1.
          { apply matches_goes. cbn [map lhs]. apply goes_kw, goes_pu. eapply goes_grp; [|apply goes_done]. cbn [map].
            apply H1; [ready|exact V3|]. apply H2; [ready|exact V2|]. rewrite <- (app_nil_r es). apply H3; [ready|exact heads_nil|]. apply goes_done. }
          cbn [rhs rev app]. now rewrite E1, E2, E3.
        - to_rule. destruct (opt_key_goes "description" [] ds d Hd eq_refl) as (l1 & E1 & H1).
          erewrite rule_hit; cycle 1.
          { apply matches_goes. cbn [map lhs]. apply goes_kw, goes_pu. eapply goes_grp; [|apply goes_done]. cbn [map].
            rewrite <- (app_nil_r ds). apply H1; [ready|exact heads_nil|]. apply goes_done. }
          cbn [rhs rev app]. now rewrite E1.
        - to_rule. destruct (opt_key_goes "description" ["items"] ds d Hd eq_refl) as (l1 & E1 & H1). erewrite rule_hit; cycle 1.
          { apply matches_goes. cbn [map lhs]. apply goes_kw, goes_pu. eapply goes_grp; [|apply goes_done]. cbn [map].
            apply H1; [ready|apply heads_key; now left|]. apply goes_kw, goes_pu. eapply goes_grp; [apply goes_other|apply goes_done]. }
          cbn [rhs rev app]. rewrite E1, trees_tt, (value_complete vs v); [reflexivity| |exact Hv].
          unfold form in Ht. rewrite !tokens_cons, !tokens_group, !tokens_app, !tokens_cons, !tokens_group in Ht. lia.
        - to_rule. destruct (opt_key_goes "description" ["properties"] ds d Hd eq_refl) as (l1 & E1 & H1).
          assert (Hb : tokens ps <= n) by (unfold form in Ht; rewrite !tokens_cons, !tokens_group, !tokens_app, !tokens_cons, !tokens_group in Ht; lia).
          apply many_within in Hl.
          destruct (many_impl _ (item_then (PV FIdent) [opt [PG Bracket [PV FTt]]; pu ":"; PG Paren [tts]]) (fun x b => property C nested b = Some x) ps l
            (fun t x (Hx : property_form C t x /\ tokens t <= tokens ps) => property_ok t x (conj (proj1 Hx) (PeanoNat.Nat.le_trans _ _ _ (proj2 Hx) Hb))) Hl) as (bs & Hbs & E).
          apply (many_goes _ _ _ (PV FIdent) _ I) in Hbs. erewrite rule_hit; cycle 1.
          { apply matches_goes. cbn [map lhs]. apply goes_kw, goes_pu. eapply goes_grp; [|apply goes_done]. cbn [map].
            apply H1; [ready|apply heads_key; now left|]. apply goes_kw, goes_pu. eapply goes_grp; [exact Hbs|apply goes_done]. }
          cbn [rhs rev app]. rewrite E1. rewrite (forall2_some _ _ _ E). reflexivity.
      Qed.
    End Complete.
  End Nested.
  Lemma parse_type_sound n : forall ts d, parse_type_n C n ts = Some d -> type_form C ts d.
  Proof. induction n as [|n IH]; intros ts l H; [discriminate|]. now apply (type_sound_step (parse_type_n C n) IH). Qed.
  Lemma parse_type_complete n : forall ts d, tokens ts < n -> type_form C ts d -> parse_type_n C n ts = Some d.
  Proof. induction n as [|n IH]; intros ts l Ht H; [lia|]. apply (type_complete_step (parse_type_n C n) n IH); [lia|exact H]. Qed.
  Lemma parse_type_spec ts d : parse_type C ts = Some d <-> type_form C ts d.
  Proof. split; [apply parse_type_sound|]. intros H. apply parse_type_complete; [lia|exact H]. Qed.
End Facts.
