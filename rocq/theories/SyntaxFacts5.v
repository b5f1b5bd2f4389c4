(** Facts about the rules: callbacks, operations and paths. *)
From Verif Require Import Match MatchFacts MatchFacts2 MatchFacts3 SyntaxSpec SyntaxFacts SyntaxFacts2 SyntaxFacts3 SyntaxFacts4.
Local Open Scope string_scope. Local Open Scope list_scope.

(** ** Lists that end with a comma *)
Section Ends.
  Variables (X : Type) (item : list tree -> X -> Prop).
  Hypothesis Hne : forall x, ~ item [] x.
  Hypothesis Hend : forall t x, ~ item (t ++ [COMMA]) x.
  Lemma comma_list_nil xs : comma_list item [] xs -> xs = [].
  Proof. intros H. inversion H as [|ts x Hx|ts x rest ys Hx Hl E]; subst; [reflexivity|now destruct (Hne x)|now destruct ts]. Qed.
  Lemma comma_list_end ts xs : comma_list item ts xs -> forall p, ts = p ++ [COMMA] -> sep_list COMMA item p xs.
  Proof.
    induction 1 as [|ts x Hx|ts x rest xs Hx Hl IH]; intros p E.
    - now destruct p.
    - subst. now destruct (Hend p x).
    - destruct rest as [|t rest _] using rev_ind.
      + apply app_inj_tail in E. destruct E as [<- _]. apply comma_list_nil in Hl. subst. now apply sl_last.
      + change (COMMA :: rest ++ [t]) with ((COMMA :: rest) ++ [t]) in E. rewrite app_assoc in E. apply app_inj_tail in E. destruct E as [<- ->].
        apply sl_more; [exact Hx|]. now apply IH.
  Qed.
  Lemma sep_list_no_end ts xs : sep_list COMMA item ts xs -> forall p, ts <> p ++ [COMMA].
  Proof.
    induction 1 as [ts x Hx|ts x rest xs Hx Hl IH]; intros p E.
    - subst. now destruct (Hend p x).
    - destruct rest as [|t rest _] using rev_ind.
      + inversion Hl as [ts' x' Hx' E'|ts' x' rest' xs' Hx' Hl' E']; subst; [now destruct (Hne x')|now destruct ts'].
      + change (COMMA :: rest ++ [t]) with ((COMMA :: rest) ++ [t]) in E. rewrite app_assoc in E. apply app_inj_tail in E. destruct E as [<- ->].
        now destruct (IH rest).
  Qed.
  Lemma sep_then_comma ts l : sep_list COMMA item ts l -> comma_list item (ts ++ [COMMA]) l.
  Proof.
    induction 1 as [ts b H|ts b rest l H Hl IH].
    - apply cl_more; [assumption|constructor].
    - rewrite <- app_assoc. now apply cl_more.
  Qed.
  Lemma loose_end p xs : loose_list item (p ++ [COMMA]) xs <-> strict_list item p xs.
  Proof.
    split.
    - intros [H|[E ->]]; [left; now apply (comma_list_end _ _ H)|]. right. destruct p as [|? [|]]; try discriminate. now split.
    - intros [H|[-> ->]]; [left; now apply sep_then_comma|now right].
  Qed.
End Ends.
Lemma comma_list_within {X} (item : list tree -> X -> Prop) ts xs : comma_list item ts xs ->
  comma_list (fun t x => item t x /\ tokens t <= tokens ts) ts xs.
Proof.
  assert (W : forall (P : list tree -> X -> Prop) n m ts xs, n <= m -> comma_list (fun t x => P t x /\ tokens t <= n) ts xs -> comma_list (fun t x => P t x /\ tokens t <= m) ts xs).
  { intros P n m us ys Hle H. induction H as [|us x [Hx Ht]|us x rest ys [Hx Ht] Hl IH]; [constructor|apply cl_last|apply cl_more]; auto; split; auto; lia. }
  induction 1 as [|ts x Hx|ts x rest xs Hx Hl IH]; [constructor|apply cl_last; auto|].
  apply cl_more; [split; [exact Hx|rewrite tokens_app; lia]|]. eapply W; [|exact IH]. rewrite tokens_app, tokens_cons. lia.
Qed.
Lemma loose_list_within {X} (item : list tree -> X -> Prop) ts xs : loose_list item ts xs ->
  loose_list (fun t x => item t x /\ tokens t <= tokens ts) ts xs.
Proof. intros [H|H]; [left; now apply comma_list_within|now right]. Qed.
Lemma url_tokens_map ts us : url_tokens ts us <-> us = map url_token ts.
Proof.
  assert (E : forall t x, (t = tk_pu "/" /\ x = USlash \/ t <> tk_pu "/" /\ x = UTok t) <-> x = url_token t).
  { intros t x. destruct t as [s|l|s|d l]; cbn [url_token]; try (split; [intros [[? ?]|[? ?]]; [discriminate|assumption]|intros ->; right; split; [discriminate|reflexivity]]).
    destruct (str_eqb_spec s (u "/")) as [->|Hs].
    - split; [intros [[_ H]|[H _]]; [assumption|now destruct H]|now left].
    - split; [intros [[H _]|[_ H]]; [now injection H|assumption]|]. intros ->. right. split; [|reflexivity]. intros H. now injection H. }
  revert us. induction ts as [|t ts IH]; intros us; split.
  - intros H. now inversion H.
  - intros ->. constructor.
  - intros H. inversion H as [|? x ? us' H1 H2]; subst. cbn [map]. f_equal; [now apply E|now apply IH].
  - intros ->. constructor; [now apply E|now apply IH].
Qed.

Section Facts.
  Variable C : caller.
  Hypothesis HC : rust_like C.
  Notation Goes := (Goes (begins C) (expr_at C) (path_at C)).
  Notation matches := (matches (begins C) (expr_at C) (path_at C)).
  Notation sm := (sm (begins C) (expr_at C) (path_at C)).
  Notation dead := (dead (begins C)).
  Notation item_ok := (item_ok (begins C) (expr_at C) (path_at C)).
  Notation path_entry := (path_entry C).
  Notation op_entry := (op_entry C).
  Notation callback_entry := (callback_entry C).
  Notation path_prop_entry := (path_prop_entry C).

  Lemma path_entry_ne x : ~ path_entry [] x. Proof. intros H. inversion H. Qed.
  Lemma path_entry_end t x : ~ path_entry (t ++ [COMMA]) x.
  Proof. intros H. inversion H as [url us p props H1 H2 H3 E]. change [TkGr Paren url; COLON_TK; TkGr Brace p] with ([TkGr Paren url; COLON_TK] ++ [TkGr Brace p]) in E.
    apply app_inj_tail in E. destruct E as [_ E]. discriminate. Qed.
  Lemma callback_entry_ne x : ~ callback_entry [] x. Proof. intros H. inversion H. Qed.
  Lemma callback_entry_end t x : ~ callback_entry (t ++ [COMMA]) x.
  Proof. intros H. inversion H as [n p ps H1 H2 H3 H4 E]. change [TkId n; COLON_TK; TkGr Brace p] with ([TkId n; COLON_TK] ++ [TkGr Brace p]) in E.
    apply app_inj_tail in E. destruct E as [_ E]. discriminate. Qed.

  (** the two ways to write callbacks *)
  Definition callback_list (ts : list tree) (xs : list callback_decl) : Prop :=
    comma_list callback_entry ts xs \/
    exists p l n ignored, (p = [] /\ l = [] \/ exists q, p = q ++ [COMMA] /\ sep_list COMMA callback_entry q l) /\
      ts = p ++ [TkLit (TlStr n); COLON_TK; TkGr Brace ignored] /\ xs = l ++ [CbLit n []].
  Lemma callback_list_cons its x rest xs : callback_entry its x -> callback_list rest xs -> callback_list (its ++ COMMA :: rest) (x :: xs).
  Proof.
    intros Hx [H|(p & l & n & ig & Hp & -> & ->)]; [left; now apply cl_more|]. right. exists (its ++ COMMA :: p), (x :: l), n, ig.
    split; [|split; [now rewrite <- app_assoc|reflexivity]]. right. destruct Hp as [[-> ->]|(q & -> & Hq)].
    - exists its. split; [reflexivity|]. now apply sl_last.
    - exists (its ++ COMMA :: q). split; [now rewrite <- app_assoc|]. now apply sl_more.
  Qed.

  Section Nested.
    Variable paths : list tree -> option (list path_decl).
    Section Sound.
      Hypothesis Hs : forall ts ps, paths ts = Some ps -> loose_list path_entry ts ps.
      (** one callback *)
      Lemma callback_more ts x rest : match_rules C (callback_rules paths) ts = Some (More x rest) ->
        (exists its, ts = its ++ COMMA :: rest /\ callback_entry its x) \/
        (exists n ig, ts = [TkLit (TlStr n); COLON_TK; TkGr Brace ig] ++ COMMA :: rest /\ exists ps, paths (rest ++ [COMMA]) = Some ps /\ x = CbLit n ps).
      Proof.
        intros H. pose proof H as H0. apply rules_in in H. destruct H as (r & b & Hin & Hm & Hx). which_rule Hin; cbn [lhs rhs stop_rule] in *; [| |discriminate].
        - apply inv_lit in Hm. destruct Hm as (l & v & i & b' & -> & Hl & -> & Hm). apply inv_tok in Hm. destruct Hm as (i1 & -> & Hm).
          apply inv_grp in Hm. destruct Hm as (ig & i2 & b1 & b2 & -> & H1 & Hm & ->). apply inv_tts in H1. subst b1.
          apply inv_comma_other in Hm. destruct Hm as (o & -> & ->). cbn [app] in Hx. rewrite trees_tt in Hx.
          destruct (str_lit v) as [n|] eqn:En; [|discriminate]. destruct (paths (o ++ [COMMA])) as [ps|] eqn:Ep; [|discriminate].
          other. injection Hx as <-. rewrite trees_tt. apply (str_lit_form _ _ _ Hl) in En. subst l. right. exists n, ig. split; [reflexivity|]. eauto.
        - apply inv_ident in Hm. destruct Hm as (n & i & b' & -> & Hn & -> & Hm). apply inv_tok in Hm. destruct Hm as (i1 & -> & Hm).
          apply inv_grp in Hm. destruct Hm as (p & i2 & b1 & b2 & -> & H1 & Hm & ->). apply inv_tts in H1. subst b1.
          apply inv_comma_other in Hm. destruct Hm as (o & -> & ->). cbn [app] in Hx. rewrite trees_tt in Hx.
          destruct (paths (p ++ [COMMA])) as [ps|] eqn:Ep; [|discriminate]. other. injection Hx as <-. rewrite trees_tt.
          left. exists [TkId n; COLON_TK; TkGr Brace p]. split; [reflexivity|].
          assert (B : forall bb : bool, n <> u (if bb then "true" else "false")).
          { intros bb ->. revert H0. unfold callback_rules. erewrite rule_hit; cycle 1.
            { apply matches_goes. cbn [map lhs]. apply (goes_bool C bb). apply goes_pu, goes_braced, goes_comma_other. }
            discriminate. }
          constructor; [exact Hn|exact (B true)|exact (B false)|]. apply Hs in Ep. now apply (loose_end _ _ path_entry_ne path_entry_end).
      Qed.
      Lemma callback_stop ts : match_rules C (callback_rules paths) ts = Some Stop -> ts = [] \/ ts = [COMMA].
      Proof.
        apply (stop_last C (firstn 2 (callback_rules paths))). intros r b Hin Hx. which_rule Hin; cbn [rhs] in Hx; break_match Hx; now apply more_no_stop in Hx.
      Qed.
      Lemma callbacks_sound n : forall ts xs, munch_rules C n (callback_rules paths) (ts ++ [COMMA]) = Some xs -> callback_list ts xs.
      Proof.
        induction n as [|n IH]; intros ts xs H; [discriminate|]. cbn [munch_rules] in H.
        destruct (match_rules C (callback_rules paths) (ts ++ [COMMA])) as [[|x rest]|] eqn:E; [| |discriminate].
        - injection H as <-. destruct (callback_stop _ E) as [E1|E1]; [now destruct ts|]. destruct ts as [|t ts]; [left; constructor|].
          injection E1 as _ E1. now destruct ts.
        - destruct (munch_rules C n (callback_rules paths) rest) as [xs'|] eqn:Em; [|discriminate]. injection H as <-.
          assert (Z : rest = [] -> xs' = []).
          { intros ->. destruct n as [|n]; [discriminate|]. cbn [munch_rules] in Em.
            destruct (match_rules C (callback_rules paths) []) as [[|y r]|] eqn:E0; [now injection Em as <-| |discriminate].
            destruct (callback_more _ _ _ E0) as [(its0 & E2 & _)|(? & ? & E2 & _)]; [now destruct its0|discriminate]. }
          destruct (callback_more _ _ _ E) as [(its & E1 & Hi)|(nm & ig & E1 & ps & Hp & ->)].
          + destruct rest as [|t rest _] using rev_ind.
            * apply app_inj_tail in E1. destruct E1 as [-> _]. rewrite (Z eq_refl). left. now apply cl_last.
            * change (COMMA :: rest ++ [t]) with ((COMMA :: rest) ++ [t]) in E1. rewrite app_assoc in E1. apply app_inj_tail in E1. destruct E1 as [-> <-].
              apply callback_list_cons; [assumption|]. now apply IH.
          + apply Hs in Hp. apply (loose_end _ _ path_entry_ne path_entry_end) in Hp.
            destruct rest as [|t rest _] using rev_ind.
            * apply app_inj_tail in E1. destruct E1 as [-> _]. rewrite (Z eq_refl).
              destruct Hp as [Hp|[_ ->]].
              { inversion Hp as [? ? Hx|ts' ? ? ? ? ? Hx]; subst; [now apply path_entry_ne in Hx|now destruct ts']. }
              right. exists [], [], nm, ig. split; [now left|]. now split.
            * exfalso. change ([TkLit (TlStr nm); COLON_TK; TkGr Brace ig] ++ COMMA :: rest ++ [t]) with
                (([TkLit (TlStr nm); COLON_TK; TkGr Brace ig] ++ COMMA :: rest) ++ [t]) in E1. apply app_inj_tail in E1. destruct E1 as [_ <-].
              destruct Hp as [Hp|[Hp _]]; [|now destruct rest]. eapply sep_list_no_end in Hp; [now apply Hp|exact path_entry_ne|exact path_entry_end].
      Qed.
    End Sound.
    Section Complete.
      Variable n : nat.
      Hypothesis Hc : forall ts ps, tokens ts < n -> loose_list path_entry ts ps -> paths ts = Some ps.
      Lemma callback_item its x rest : callback_entry its x -> tokens its <= n ->
        match_rules C (callback_rules paths) (its ++ COMMA :: rest) = Some (More x rest).
      Proof.
        intros Hi Ht. destruct Hi as [nm p ps Hn Hn1 Hn2 Hp]. unfold callback_rules. cbn [app].
        rewrite rule_skip by (apply matches_goes; cbn [map lhs]; apply goes_frag_not; cbn [may_begin]; apply orb_false_iff; now split; apply str_eqb_neq).
        erewrite rule_hit; cycle 1.
        { apply matches_goes. cbn [map lhs]. apply goes_ident; [exact Hn|]. apply goes_pu, goes_braced, goes_comma_other. }
        cbn [rhs rev app]. rewrite trees_tt, (Hc (p ++ [COMMA]) ps).
        - apply more_some.
        - rewrite tokens_app. rewrite !tokens_cons, tokens_group in Ht. pose proof (tree_size_pos (TkId nm)). pose proof (tree_size_pos COLON_TK).
          change (tokens [COMMA]) with 1. lia.
        - now apply (loose_end _ _ path_entry_ne path_entry_end).
      Qed.
      Lemma callback_end : match_rules C (callback_rules paths) [] = Some Stop /\ match_rules C (callback_rules paths) [COMMA] = Some Stop.
      Proof. split; reflexivity. Qed.
      Lemma callbacks_complete_n ts xs : callback_list ts xs -> tokens ts <= n ->
        forall m, length ts + 1 < m -> munch_rules C m (callback_rules paths) (ts ++ [COMMA]) = Some xs.
      Proof.
        intros [H|(p & l & nm & ig & Hp & -> & ->)] Ht m Hm.
        - apply comma_list_within in H. eapply (munch_complete C _ _ (fun t x => callback_entry t x /\ tokens t <= tokens ts)); [apply (proj1 callback_end)|apply (proj2 callback_end)| |exact H|exact Hm].
          intros its x rest [Hi Hl]. apply callback_item; [assumption|lia].
        - assert (Hlit : forall m, 4 < m -> munch_rules C m (callback_rules paths) ([TkLit (TlStr nm); COLON_TK; TkGr Brace ig] ++ [COMMA]) = Some [CbLit nm []]).
          { intros [|[|m']] Hm'; try lia. cbn [munch_rules app].
            assert (E : match_rules C (callback_rules paths) [TkLit (TlStr nm); COLON_TK; TkGr Brace ig; COMMA] = Some (More (CbLit nm []) [])).
            { unfold callback_rules. erewrite rule_hit; cycle 1.
              { apply matches_goes. cbn [map lhs]. apply goes_lit, goes_pu, goes_braced, goes_comma_other. }
              cbn [rhs rev app lit_value str_lit tt_rounds trees flat_map map]. rewrite (Hc [COMMA] []); [reflexivity| |now right].
              rewrite tokens_app, !tokens_cons, tokens_group in Ht. change (tokens [COMMA]) with 1. pose proof (tree_size_pos (TkLit (TlStr nm))). pose proof (tree_size_pos COLON_TK). lia. }
            rewrite E. cbn [munch_rules]. now rewrite (proj1 callback_end). }
          destruct Hp as [[-> ->]|(q & -> & Hq)]; [cbn in Hm; now apply Hlit; lia|].
          rewrite <- !app_assoc in *. rewrite tokens_app in Ht.
          revert m Hm. induction Hq as [ts x Hx|ts x rest xs Hx Hl IH]; intros [|m] Hm; try lia; cbn [munch_rules].
          + cbn [app] in *. rewrite (callback_item _ _ _ Hx) by lia. rewrite app_length in Hm. cbn in Hm. fold (callback_rules paths). rewrite (Hlit m) by lia. reflexivity.
          + rewrite tokens_app, tokens_cons in Ht. rewrite <- app_assoc. cbn [app]. rewrite (callback_item _ _ _ Hx) by lia.
            rewrite app_length in Hm. cbn [length app] in Hm. cbn [app] in IH. rewrite IH; [reflexivity|cbn [app] in Ht; lia|]. rewrite app_length in *. cbn [length] in *. lia.
      Qed.
      Lemma callbacks_complete ts xs : callback_list ts xs -> tokens ts <= n -> munch_all C (callback_rules paths) ts = Some xs.
      Proof. intros H2 H3. apply callbacks_complete_n; try assumption. lia. Qed.
    End Complete.
  End Nested.
End Facts.
