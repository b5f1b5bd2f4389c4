(** Facts about the rules: paths, sections and whole invocations. *)
From Verif Require Import Match MatchFacts MatchFacts2 MatchFacts3 SyntaxSpec SyntaxFacts SyntaxFacts2 SyntaxFacts3 SyntaxFacts4 SyntaxFacts5 SyntaxFacts6.
Local Open Scope string_scope. Local Open Scope list_scope.

Section Facts.
  Variable C : caller.
  Hypothesis HC : rust_like C.
  Notation Goes := (Goes (begins C) (expr_at C) (path_at C)).
  Notation matches := (matches (begins C) (expr_at C) (path_at C)).
  Notation sm := (sm (begins C) (expr_at C) (path_at C)).
  Notation dead := (dead (begins C)).
  Notation item_ok := (item_ok (begins C) (expr_at C) (path_at C)).
  Notation path_entry := (path_entry C).
  Notation path_prop_entry := (path_prop_entry C).

  Lemma path_field_inv k s x : path_field k s = Some x -> k = u "summary" /\ x = PvSummary s \/ k = u "description" /\ x = PvDescription s.
  Proof.
    unfold path_field. destruct (str_eqb_spec k (u "summary")) as [->|_]; [intros [= <-]; auto|].
    destruct (str_eqb_spec k (u "description")) as [->|_]; [intros [= <-]; auto|discriminate].
  Qed.
  Lemma name_lit n ts v rest : a_name n -> lit_form ts v ->
    matches [PV FIdent; pu ":"; PV FLit; pu ","; tts] (TkId n :: COLON_TK :: ts ++ COMMA :: rest) = Match [BId n; BLit v; BRep (tt_rounds rest)].
  Proof. intros Hn Hv. apply matches_goes. cbn [map]. apply goes_ident; [exact Hn|]. apply goes_pu. eapply goes_literal; [exact Hv|apply goes_comma_other]. Qed.
  Lemma name_no_lit n d p rest : a_name n -> matches [PV FIdent; pu ":"; PV FLit; pu ","; tts] (TkId n :: COLON_TK :: TkGr d p :: rest) = NoMatch.
  Proof. intros Hn. apply matches_goes. cbn [map]. apply goes_ident; [exact Hn|]. apply goes_pu. now apply goes_frag_not. Qed.

  Section Nested.
    Variable paths : list tree -> option (list path_decl).
    Lemma path_end : match_rules C (path_rules C paths) [] = Some Stop /\ match_rules C (path_rules C paths) [COMMA] = Some Stop.
    Proof. split; reflexivity. Qed.
    Lemma path_stop ts : match_rules C (path_rules C paths) ts = Some Stop -> ts = [] \/ ts = [COMMA].
    Proof.
      apply (stop_last C (firstn 3 (path_rules C paths))). intros r b Hin Hx. which_rule Hin; cbn [rhs] in Hx; break_match Hx; now apply more_no_stop in Hx.
    Qed.
    Section Sound.
      Hypothesis Hs : forall ts ps, paths ts = Some ps -> loose_list path_entry ts ps.
      Lemma path_more ts x rest : match_rules C (path_rules C paths) ts = Some (More x rest) -> exists its, ts = its ++ COMMA :: rest /\ path_prop_entry its x.
      Proof.
        intros H. apply rules_in in H. destruct H as (r & b & Hin & Hm & Hx). which_rule Hin; cbn [lhs rhs stop_rule] in *; [| | |discriminate].
        - apply inv_ident in Hm. destruct Hm as (n & i & b' & -> & Hn & -> & Hm). apply inv_tok in Hm. destruct Hm as (i1 & -> & Hm).
          apply inv_lit in Hm. destruct Hm as (l & v & i2 & b2 & -> & Hl & -> & Hm). apply inv_comma_other in Hm. destruct Hm as (o & -> & ->).
          other. destruct (str_lit v) as [s|] eqn:Ev; [|discriminate]. apply (str_lit_form _ _ _ Hl) in Ev. subst l. rewrite trees_tt.
          exists [TkId n; COLON_TK; TkLit (TlStr s)]. split; [reflexivity|].
          apply path_field_inv in Hx. destruct Hx as [[-> ->]|[-> ->]]; constructor; eexists; (split; [reflexivity|]); reflexivity.
        - apply (inv_key_braces C) in Hm. destruct Hm as (p & o & -> & ->). other. apply option_map_inv in Hx. destruct Hx as (k & Hk & ->).
          rewrite trees_tt in *. eexists. split; [reflexivity|]. constructor. eexists. split; [reflexivity|]. exists p. split; [reflexivity|]. now apply param_spec.
        - apply inv_ident in Hm. destruct Hm as (n & i & b' & -> & Hn & -> & Hm). apply inv_tok in Hm. destruct Hm as (i1 & -> & Hm).
          apply inv_grp in Hm. destruct Hm as (p & i2 & b1 & b2 & -> & H1 & Hm & ->). apply inv_tts in H1. subst b1.
          apply inv_comma_other in Hm. destruct Hm as (o & -> & ->). cbn [app] in Hx. rewrite trees_tt in Hx.
          destruct (method_of n) as [m|] eqn:Em; [|discriminate]. destruct (munch_all C (op_rules C paths) p) as [l|] eqn:Ep; [|discriminate].
          other. injection Hx as <-. rewrite trees_tt. apply method_of_word in Em. subst n. exists [tk_id (method_word m); COLON_TK; TkGr Brace p].
          split; [reflexivity|]. constructor. now apply (ops_sound C HC paths Hs).
      Qed.
      Lemma path_sound i rest b x : sm [PG Paren [tts1]; pu ":"; PG Brace [tts]] i rest b -> stops [COMMA] rest -> path_item C paths b = Some x ->
        exists its, i = its ++ rest /\ path_entry its x.
      Proof.
        intros Hm _ Hx. apply inv_grp in Hm. destruct Hm as (url & i1 & b1 & b2 & -> & H1 & Hm & ->). apply inv_tts1 in H1. destruct H1 as [-> Hne].
        apply inv_tok in Hm. destruct Hm as (i2 & -> & Hm). apply inv_grp in Hm. destruct Hm as (p & i3 & b3 & b4 & -> & H3 & Hm & ->). apply inv_tts in H3. subst b3.
        apply inv_nil in Hm. destruct Hm as [-> ->]. cbn [app path_item] in Hx. rewrite !trees_tt in Hx. apply option_map_inv in Hx. destruct Hx as (l & Hl & ->).
        exists [TkGr Paren url; COLON_TK; TkGr Brace p]. split; [reflexivity|]. constructor; [exact Hne|now apply url_tokens_map|].
        revert Hl. apply munch_sound; [exact path_stop|exact path_more].
      Qed.
      Lemma paths_sound_step ts l : match_rules C (paths_rules C paths) ts = Some l -> loose_list path_entry ts l.
      Proof.
        intros H. apply rules_in in H. destruct H as (r & b & Hin & Hm & Hx). which_rule Hin; cbn [lhs rhs] in *.
        destruct (list_sound C _ _ _ (path_item C paths) path_entry path_sound _ _ Hm) as (bs & c & -> & Hl). now apply Hl.
      Qed.
    End Sound.
    Section Complete.
      Variable n : nat.
      Hypothesis Hc : forall ts ps, tokens ts < n -> loose_list path_entry ts ps -> paths ts = Some ps.
      Lemma path_prop_item its x rest : path_prop_entry its x -> tokens its <= n -> match_rules C (path_rules C paths) (its ++ COMMA :: rest) = Some (More x rest).
      Proof.
        intros Hi Ht. unfold path_rules. destruct Hi as [its s (v & -> & ->)|its s (v & -> & ->)|its l (v & -> & p & -> & Hl)|m p l Hl]; cbn [app].
        - rewrite (rule_hit C (Build_rule _ _) _ _ _ (name_lit (u "summary") _ _ rest ltac:(discriminate) (lf_lit (TlStr s)))). apply more_some.
        - rewrite (rule_hit C (Build_rule _ _) _ _ _ (name_lit (u "description") _ _ rest ltac:(discriminate) (lf_lit (TlStr s)))). apply more_some.
        - rewrite rule_skip by (now apply name_no_lit). rewrite (rule_hit C (Build_rule _ _) _ _ _ (key_braces C "parameters" p rest)). cbn [rhs].
          rewrite trees_tt, (proj2 (param_spec C HC _ _) Hl). apply more_some.
        - assert (Hn : a_name (u (method_word m))) by (now destruct m). rewrite rule_skip by (now apply name_no_lit).
          rewrite rule_skip by (apply key_not; now destruct m).
          erewrite rule_hit; cycle 1.
          { apply matches_goes. cbn [map lhs]. apply goes_ident; [exact Hn|]. apply goes_pu, goes_braced, goes_comma_other. }
          cbn [rhs rev app]. rewrite trees_tt, (proj2 (method_of_word _ m) eq_refl), (ops_complete C HC paths n Hc _ _ Hl); [apply more_some|].
          rewrite !tokens_cons, tokens_group in Ht. lia.
      Qed.
      Lemma path_ok its x : path_entry its x /\ tokens its <= n ->
        exists b, item_ok [COMMA] [COMMA] (PG Paren [tts1]) [pu ":"; PG Brace [tts]] its b /\ path_item C paths b = Some x.
      Proof.
        intros [[url us p l Hne Hu Hl] Ht]. exists [BRep (tt_rounds url); BRep (tt_rounds p)]. split; [split|].
        - eexists _, _. split; [reflexivity|]. intros a [<-|[]]. reflexivity.
        - intros K rest r _ _ H. cbn [app map]. eapply goes_grp; [apply (goes_tts1 _ _ _ []); exact Hne|]. cbn [rev app].
          apply goes_pu, goes_braced. exact H.
        - cbn [path_item]. rewrite !trees_tt. apply url_tokens_map in Hu. subst us.
          apply comma_list_within in Hl. replace (munch_all C (path_rules C paths) p) with (Some l); [reflexivity|]. symmetry.
          apply (munch_complete C _ (path_rules C paths) (fun t x => path_prop_entry t x /\ tokens t <= tokens p)); [exact (proj1 path_end)|exact (proj2 path_end)| |exact Hl|lia].
          intros its' x' rest [Hi Hi']. apply path_prop_item; [exact Hi|]. rewrite !tokens_cons, !tokens_group in Ht. lia.
      Qed.
      Lemma paths_complete_step ts l : loose_list path_entry ts l -> tokens ts <= n -> match_rules C (paths_rules C paths) ts = Some l.
      Proof.
        intros H Ht. apply loose_list_within in H.
        assert (H' : loose_list (fun t x => path_entry t x /\ tokens t <= n) ts l).
        { destruct (loose_list_impl _ (fun t x => path_entry t x /\ tokens t <= n) eq ts l (fun t x (Hx : path_entry t x /\ tokens t <= tokens ts) =>
            ex_intro _ x (conj (conj (proj1 Hx) (PeanoNat.Nat.le_trans _ _ _ (proj2 Hx) Ht)) eq_refl)) H) as (l' & Hl & E).
          assert (l = l') as -> by (clear -E; induction E; congruence). exact Hl. }
        destruct (list_complete C _ (PG Paren [tts1]) [pu ":"; PG Brace [tts]] (path_item C paths) _ I path_ok ts l H') as (bs & c & Hg & Hb); [intros; split; reflexivity|].
        unfold paths_rules. rewrite (rule_hit C (Build_rule _ _) _ _ _ (matches_goes _ _ _ _ _ _ Hg)). exact Hb.
      Qed.
    End Complete.
  End Nested.
  Lemma parse_paths_sound n : forall ts l, parse_paths C n ts = Some l -> loose_list path_entry ts l.
  Proof. induction n as [|n IH]; intros ts l H; [discriminate|]. now apply (paths_sound_step (parse_paths C n) IH). Qed.
  Lemma parse_paths_complete n : forall ts l, tokens ts < n -> loose_list path_entry ts l -> parse_paths C n ts = Some l.
  Proof.
    induction n as [|n IH]; intros ts l Ht H; [lia|]. apply (paths_complete_step (parse_paths C n) n IH); [exact H|lia].
  Qed.
  Lemma parse_paths_spec ts l : parse_paths C (S (tokens ts)) ts = Some l <-> loose_list path_entry ts l.
  Proof. split; [apply parse_paths_sound|]. intros H. apply parse_paths_complete; [lia|exact H]. Qed.

  (** *** info *)
  Lemma info_sound i rest b x : sm [PV FIdent; pu ":"; PV FExpr] i rest b -> stops [COMMA] rest -> info_item C b = Some x ->
    exists its, i = its ++ rest /\ info_entry C its x.
  Proof.
    intros Hm Hr Hx. apply inv_ident in Hm. destruct Hm as (n & i1 & b1 & -> & Hn & -> & Hm). apply inv_tok in Hm. destruct Hm as (i2 & -> & Hm).
    apply (inv_expr C HC) in Hm. destruct Hm as (e & i3 & b2 & -> & He & -> & Hm). apply inv_nil in Hm. destruct Hm as [-> ->]. specialize (He Hr).
    exists (TkId n :: COLON_TK :: e). split; [reflexivity|]. unfold info_item in Hx.
    destruct (str_eqb_spec n (u "title")) as [->|_]; [apply option_map_inv in Hx; destruct Hx as (s & Hs & ->); exists e; repeat split; assumption|].
    destruct (str_eqb_spec n (u "version")) as [->|_]; [apply option_map_inv in Hx; destruct Hx as (s & Hs & ->); exists e; repeat split; assumption|].
    destruct (str_eqb_spec n (u "description")) as [->|_]; [apply option_map_inv in Hx; destruct Hx as (s & Hs & ->); exists e; repeat split; assumption|discriminate].
  Qed.
  Lemma info_ok its x : info_entry C its x -> exists b, item_ok [COMMA] [COMMA] (PV FIdent) [pu ":"; PV FExpr] its b /\ info_item C b = Some x.
  Proof.
    intros H. assert (G : forall k e, a_name (u k) -> an_expr C e -> item_ok [COMMA] [COMMA] (PV FIdent) [pu ":"; PV FExpr] (tk_id k :: COLON_TK :: e) [BId (u k); BToks e]).
    { intros k e Hk He. split.
      - eexists _, _. split; [reflexivity|]. intros a [<-|[]]. reflexivity.
      - intros K rest r _ Hr Hg. cbn [app map]. apply goes_ident; [exact Hk|]. apply goes_pu, (goes_expr C HC); assumption. }
    destruct x as [s|s|s]; destruct H as (e & -> & He & Hs); (eexists; split; [apply G; [discriminate|exact He]|]; unfold info_item; cbn [str_eqb]; rewrite Hs; reflexivity).
  Qed.
  Lemma info_spec ts l : match_rules C (info_rules C) ts = Some l <-> loose_list (info_entry C) ts l.
  Proof.
    split.
    - intros H. apply rules_in in H. destruct H as (r & b & Hin & Hm & Hx). which_rule Hin; cbn [lhs rhs] in *.
      destruct (list_sound C _ _ _ (info_item C) (info_entry C) info_sound _ _ Hm) as (bs & c & -> & Hl). now apply Hl.
    - intros H. destruct (list_complete C _ (PV FIdent) [pu ":"; PV FExpr] (info_item C) _ I info_ok ts l H) as (bs & c & Hg & Hb); [intros; split; reflexivity|].
      unfold info_rules. rewrite (rule_hit C (Build_rule _ _) _ _ _ (matches_goes _ _ _ _ _ _ Hg)). exact Hb.
  Qed.

  Lemma opt_last_out d q cur K rest r : closed (begins C) K -> stops [COMMA] rest -> Goes [(BRep [] :: cur, K)] rest r ->
    Goes [(cur, KP (opt [PG d q]) :: K)] rest r.
  Proof.
    intros HK Hr H. destruct (HK (BRep [] :: cur)) as (l & Hl & _). apply (closure_le 8 10) in Hl; [|lia]. destruct Hr as [->|(t & rest' & -> & [<-|[]])].
    - apply (goes_eq C _ _ _ _ Hl) in H. eexists. split; [apply opt_closed; [exact I|exact Hl]|]. intros n Hn. specialize (H n Hn).
      destruct n as [|n]; [lia|]. cbn [run] in *. unfold ends in *. rewrite flat_map_app. cbn [ready_of flat_map app]. now rewrite app_nil_r.
    - eapply opt_out; [exact I|exact Hl|repeat split|exact H].
  Qed.
  Lemma opt_last_in d q cur K l b rest r : closed (begins C) K -> Goes [([], map KP q)] l (Match b) -> Goes [(BRep [b] :: cur, K)] rest r ->
    Goes [(cur, KP (opt [PG d q]) :: K)] (TkGr d l :: rest) r.
  Proof.
    intros HK Hi H. destruct (HK (BRep [] :: cur)) as (l0 & Hl & Hd). apply (closure_le 8 10) in Hl; [|lia].
    eapply opt_in; [exact I|exact Hl|apply Hd|]. cbn [map app]. eapply goes_grp; [exact Hi|]. rewrite app_nil_r.
    destruct (HK (BRep [b] :: cur)) as (l1 & Hl1 & _). apply (closure_le 8 10) in Hl1; [|lia].
    eapply opt_done; rewrite rev_involutive; [exact Hl1|exact H].
  Qed.

  (** *** tags *)
  Lemma tags_sound i rest b x : sm [PV FIdent; opt [PG Paren [PV FExpr]]] i rest b -> stops [COMMA] rest -> Syntax.tag_item C b = Some x ->
    exists its, i = its ++ rest /\ tag_entry C its x.
  Proof.
    intros Hm Hr Hx. apply inv_ident in Hm. destruct Hm as (n & i1 & b1 & -> & Hn & -> & Hm). apply inv_opt in Hm.
    destruct Hm as [(b2 & -> & Hm)|(i2 & b2 & b3 & H1 & -> & Hm)]; apply inv_nil in Hm; destruct Hm as [-> ->].
    - injection Hx as <-. exists [TkId n]. split; [reflexivity|now constructor].
    - apply inv_grp in H1. destruct H1 as (e & i3 & b4 & b5 & -> & H1 & H2 & ->). apply inv_nil in H2. destruct H2 as [-> ->]. rewrite app_nil_r in Hx.
      apply (inv_expr C HC) in H1. destruct H1 as (e' & i4 & b6 & -> & He & -> & H1). apply inv_nil in H1. destruct H1 as [-> ->]. rewrite app_nil_r.
      cbn [Syntax.tag_item] in Hx. apply option_map_inv in Hx. destruct Hx as (s & Hs & ->). exists [TkId n; TkGr Paren e']. split; [reflexivity|].
      constructor; [exact Hn|]. split; [apply He; now left|exact Hs].
  Qed.
  Lemma tags_ok its x : tag_entry C its x -> exists b, item_ok [COMMA] [COMMA] (PV FIdent) [opt [PG Paren [PV FExpr]]] its b /\ Syntax.tag_item C b = Some x.
  Proof.
    intros H. destruct H as [n Hn|n e s Hn [He Hs]].
    - exists [BId n; BRep []]. split; [split|reflexivity].
      + eexists _, _. split; [reflexivity|]. intros a [<-|[]]. reflexivity.
      + intros K rest r HK Hr Hg. cbn [app map]. apply goes_ident; [exact Hn|]. now apply opt_last_out.
    - exists [BId n; BRep [[BToks e]]]. split; [split|cbn [Syntax.tag_item]; now rewrite Hs].
      + eexists _, _. split; [reflexivity|]. intros a [<-|[]]. reflexivity.
      + intros K rest r HK Hr Hg. cbn [app map]. apply goes_ident; [exact Hn|]. eapply opt_last_in; [exact HK| |exact Hg].
        cbn [map]. apply (expr_all C HC); [exact He|]. apply goes_done.
  Qed.
  Lemma tags_spec ts l : match_rules C (tags_rules C) ts = Some l <-> loose_list (tag_entry C) ts l.
  Proof.
    split.
    - intros H. apply rules_in in H. destruct H as (r & b & Hin & Hm & Hx). which_rule Hin; cbn [lhs rhs] in *.
      destruct (list_sound C _ _ _ (Syntax.tag_item C) (tag_entry C) tags_sound _ _ Hm) as (bs & c & -> & Hl). now apply Hl.
    - intros H. destruct (list_complete C _ (PV FIdent) [opt [PG Paren [PV FExpr]]] (Syntax.tag_item C) _ I tags_ok ts l H) as (bs & c & Hg & Hb); [intros; split; reflexivity|].
      unfold tags_rules. rewrite (rule_hit C (Build_rule _ _) _ _ _ (matches_goes _ _ _ _ _ _ Hg)). exact Hb.
  Qed.

  (** *** servers *)
  Lemma server_sound i rest b x : sm [PV FTt; opt [PG Paren [PV FTt]]] i rest b -> stops [COMMA] rest -> server_item C b = Some x ->
    exists its, i = its ++ rest /\ server_entry C its x.
  Proof.
    intros Hm Hr Hx. apply inv_tt in Hm. destruct Hm as (t & i1 & b1 & -> & -> & Hm). apply inv_opt in Hm.
    destruct Hm as [(b2 & -> & Hm)|(i2 & b2 & b3 & H1 & -> & Hm)]; apply inv_nil in Hm; destruct Hm as [-> ->]; unfold server_item in Hx.
    - apply option_map_inv in Hx. destruct Hx as (s & Hs & ->). exists [t]. split; [reflexivity|]. constructor. now apply server_text_spec.
    - apply inv_grp in H1. destruct H1 as (e & i3 & b4 & b5 & -> & H1 & H2 & ->). apply inv_nil in H2. destruct H2 as [-> ->]. rewrite app_nil_r in Hx.
      apply inv_tt in H1. destruct H1 as (t' & i4 & b6 & -> & -> & H1). apply inv_nil in H1. destruct H1 as [-> ->].
      destruct (server_text C [t]) as [s|] eqn:E1; [|discriminate]. destruct (server_text C [t']) as [d|] eqn:E2; [|discriminate]. injection Hx as <-.
      exists [t; TkGr Paren [t']]. split; [reflexivity|]. constructor; now apply server_text_spec.
  Qed.
  Lemma server_no_comma t s : server_word C t s -> token_eqb COMMA t = false.
  Proof. now intros []. Qed.
  Lemma server_ok its x : server_entry C its x -> exists b, item_ok [COMMA] [COMMA] (PV FTt) [opt [PG Paren [PV FTt]]] its b /\ server_item C b = Some x.
  Proof.
    intros H. destruct H as [t s Hs|t s t' d Hs Hd].
    - exists [BToks [t]; BRep []]. split; [split|cbn [server_item]; now rewrite (proj2 (server_text_spec C _ _) Hs)].
      + eexists _, _. split; [reflexivity|]. intros a [<-|[]]. now apply server_no_comma in Hs.
      + intros K rest r HK Hr Hg. cbn [app map]. apply goes_tt. now apply opt_last_out.
    - exists [BToks [t]; BRep [[BToks [t']]]]. split; [split|cbn [server_item]; now rewrite (proj2 (server_text_spec C _ _) Hs), (proj2 (server_text_spec C _ _) Hd)].
      + eexists _, _. split; [reflexivity|]. intros a [<-|[]]. now apply server_no_comma in Hs.
      + intros K rest r HK Hr Hg. cbn [app map]. apply goes_tt. eapply opt_last_in; [exact HK| |exact Hg]. cbn [map]. apply goes_tt, goes_done.
  Qed.
  Lemma servers_spec ts l : match_rules C (servers_rules C) ts = Some l <-> comma_list (server_entry C) ts l.
  Proof.
    split.
    - intros H. pose proof H as H0. apply rules_in in H. destruct H as (r & b & Hin & Hm & Hx). which_rule Hin; cbn [lhs rhs] in *.
      destruct (list_sound C _ _ _ (server_item C) (server_entry C) server_sound _ _ Hm) as (bs & c & -> & Hl). destruct (Hl _ Hx) as [H|[-> ->]]; [exact H|].
      discriminate H0.
    - intros H. destruct (list_complete C _ (PV FTt) [opt [PG Paren [PV FTt]]] (server_item C) _ I server_ok ts l (or_introl H)) as (bs & c & Hg & Hb).
      { intros th ->. exfalso. clear -H. inversion H as [|ts' x Hx E|ts' x rest' xs Hx Hl E]; subst.
        - inversion Hx as [t s Hs|]; subst. inversion Hs.
        - destruct ts' as [|? ts']; [inversion Hx|]. injection E as _ E. now destruct ts'. }
      unfold servers_rules. rewrite (rule_hit C (Build_rule _ _) _ _ _ (matches_goes _ _ _ _ _ _ Hg)). exact Hb.
  Qed.

  (** *** sections *)
  Lemma section_sound i rest b x : sm [PV FIdent; pu ":"; PG Brace [tts]] i rest b -> stops [COMMA] rest -> section C b = Some x ->
    exists its, i = its ++ rest /\ section_entry C its x.
  Proof.
    intros Hm _ Hx. apply inv_ident in Hm. destruct Hm as (n & i1 & b1 & -> & Hn & -> & Hm). apply inv_tok in Hm. destruct Hm as (i2 & -> & Hm).
    apply inv_grp in Hm. destruct Hm as (p & i3 & b3 & b4 & -> & H3 & Hm & ->). apply inv_tts in H3. subst b3. apply inv_nil in Hm. destruct Hm as [-> ->].
    cbn [app] in Hx. unfold section in Hx. rewrite trees_tt in Hx. exists [TkId n; COLON_TK; TkGr Brace p]. split; [reflexivity|].
    destruct (str_eqb_spec n (u "info")) as [->|_];
      [apply option_map_inv in Hx; destruct Hx as (l & Hl & ->); eexists; (split; [reflexivity|]); eexists; (split; [reflexivity|]); now apply info_spec|].
    destruct (str_eqb_spec n (u "tags")) as [->|_];
      [apply option_map_inv in Hx; destruct Hx as (l & Hl & ->); eexists; (split; [reflexivity|]); eexists; (split; [reflexivity|]); now apply tags_spec|].
    destruct (str_eqb_spec n (u "servers")) as [->|_];
      [apply option_map_inv in Hx; destruct Hx as (l & Hl & ->); eexists; (split; [reflexivity|]); eexists; (split; [reflexivity|]); now apply servers_spec|].
    destruct (str_eqb_spec n (u "security_schemes")) as [->|_];
      [apply option_map_inv in Hx; destruct Hx as (l & Hl & ->); eexists; (split; [reflexivity|]); eexists; (split; [reflexivity|]); now apply scheme_spec|].
    destruct (str_eqb_spec n (u "paths")) as [->|_];
      [apply option_map_inv in Hx; destruct Hx as (l & Hl & ->); eexists; (split; [reflexivity|]); eexists; (split; [reflexivity|]); now apply parse_paths_spec|].
    discriminate.
  Qed.
  Lemma section_ok its x : section_entry C its x -> exists b, item_ok [COMMA] [COMMA] (PV FIdent) [pu ":"; PG Brace [tts]] its b /\ section C b = Some x.
  Proof.
    intros H. assert (G : forall k p, a_name (u k) -> item_ok [COMMA] [COMMA] (PV FIdent) [pu ":"; PG Brace [tts]] [tk_id k; COLON_TK; TkGr Brace p] [BId (u k); BRep (tt_rounds p)]).
    { intros k p Hk. split.
      - eexists _, _. split; [reflexivity|]. intros a [<-|[]]. reflexivity.
      - intros K rest r _ _ Hg. cbn [app map]. apply goes_ident; [exact Hk|]. now apply goes_pu, goes_braced. }
    destruct x as [l|l|l|l|l]; destruct H as (v & -> & p & -> & Hl); (eexists; split; [apply G; discriminate|]); unfold section; rewrite trees_tt; cbn [str_eqb].
    - now rewrite (proj2 (info_spec _ _) Hl).
    - now rewrite (proj2 (tags_spec _ _) Hl).
    - now rewrite (proj2 (servers_spec _ _) Hl).
    - now rewrite (proj2 (scheme_spec C HC _ _) Hl).
    - now rewrite (proj2 (parse_paths_spec _ _) Hl).
  Qed.
  Lemma parse_api_spec ts a : parse_api C ts = Some a <-> invocation C ts a.
  Proof.
    unfold parse_api, invocation. split.
    - intros H. apply rules_in in H. destruct H as (r & b & Hin & Hm & Hx). which_rule Hin; cbn [lhs rhs] in *.
      destruct (list_sound C _ _ _ (section C) (section_entry C) section_sound _ _ Hm) as (bs & c & -> & Hl).
      destruct bs as [|b bs]; [discriminate|]. assert (a <> []) by (intros ->; cbn in Hx; destruct (section C b), (all_some (section C) bs); discriminate).
      split; [|assumption]. destruct (Hl _ Hx) as [Ha|[_ ->]]; [exact Ha|easy].
    - intros [H Hne]. destruct (list_complete C _ (PV FIdent) [pu ":"; PG Brace [tts]] (section C) _ I section_ok ts a (or_introl H)) as (bs & c & Hg & Hb); [intros; split; reflexivity|].
      unfold api_rules. rewrite (rule_hit C (Build_rule _ _) _ _ _ (matches_goes _ _ _ _ _ _ Hg)). cbn [rhs].
      destruct bs as [|b bs]; [cbn in Hb; congruence|exact Hb].
  Qed.

  (** *** segments of urls *)
  Lemma url_segment_spec ts s : url_segment C ts = Some s <-> segment_form C ts s.
  Proof.
    unfold url_segment. split.
    - intros H. pose proof H as H0. apply rules_in in H. destruct H as (r & b & Hin & Hm & Hx). which_rule Hin; cbn [lhs rhs] in *.
      + apply inv_lit in Hm. destruct Hm as (l & v & i & b1 & -> & Hl & -> & Hm). apply inv_nil in Hm. destruct Hm as [-> ->].
        apply option_map_inv in Hx. destruct Hx as (t & Ht & ->). apply (str_lit_form _ _ _ Hl) in Ht. subst l. constructor.
      + apply (inv_path C HC) in Hm. destruct Hm as (e & i & b1 & -> & He & -> & Hm). apply inv_nil in Hm. destruct Hm as [-> ->]. rewrite app_nil_r in *.
        apply option_map_inv in Hx. destruct Hx as (t & Ht & ->).
        assert (B : forall bb : bool, e <> [tk_id (if bb then "true" else "false")]).
        { intros bb ->. revert H0. erewrite rule_hit; [|apply matches_goes; cbn [map lhs]; apply (goes_bool C bb), goes_done]. discriminate. }
        constructor; [split; [apply He; now left|exact Ht]|exact (B true)|exact (B false)].
      + apply inv_grp in Hm. destruct Hm as (l & i & b1 & b2 & -> & H1 & Hm & ->). apply inv_nil in Hm. destruct Hm as [-> ->]. rewrite app_nil_r in Hx.
        apply inv_ident in H1. destruct H1 as (n & i1 & b3 & -> & Hn & -> & H1). apply inv_tok in H1. destruct H1 as (i2 & -> & H1).
        apply (inv_path C HC) in H1. destruct H1 as (e & i & b4 & -> & He & -> & H1). apply inv_nil in H1. destruct H1 as [-> ->]. rewrite app_nil_r in *.
        apply option_map_inv in Hx. destruct Hx as (t & Ht & ->). constructor; [exact Hn|]. split; [apply He; now left|exact Ht].
    - intros [t|p t [Hp Ht] H1 H2|n p t Hn [Hp Ht]].
      + erewrite rule_hit; [|apply matches_goes; cbn [map lhs]; apply goes_lit, goes_done]. reflexivity.
      + rewrite rule_skip.
        * erewrite rule_hit; [|apply matches_goes; cbn [map lhs]; apply (path_all C HC); [exact Hp|apply goes_done]]. cbn [rhs rev app]. now rewrite Ht.
        * destruct (path_head C HC p Hp) as (t0 & p' & -> & Hb). apply matches_goes. cbn [map lhs].
          destruct Hb as [[n ->]| ->]; [|now apply goes_frag_not].
          destruct (may_begin (begins C) FLit (TkId n)) eqn:Eb; [|now apply goes_frag_not].
          cbn [may_begin] in Eb. apply orb_true_iff in Eb.
          assert (Ht' : exists bb : bool, n = u (if bb then "true" else "false")).
          { destruct Eb as [E|E]; apply str_eqb_eq in E; [exists true|exists false]; assumption. }
          destruct Ht' as [bb ->]. apply (goes_bool C bb). destruct p' as [|t1 p']; [exfalso; destruct bb; [now apply H1|now apply H2]|apply goes_left].
      + rewrite rule_skip by (apply matches_goes; cbn [map lhs]; now apply goes_frag_not).
        rewrite rule_skip by (apply matches_goes; cbn [map lhs]; now apply goes_frag_not).
        erewrite rule_hit.
        2:{ apply matches_goes. cbn [map lhs]. eapply goes_grp; [cbn [map]; apply goes_ident; [exact Hn|]; apply goes_pu, (path_all C HC); [exact Hp|apply goes_done]|].
            apply goes_done. }
        cbn [rhs rev app]. now rewrite Ht.
  Qed.
End Facts.
