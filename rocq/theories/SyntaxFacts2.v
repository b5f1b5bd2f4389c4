(** Facts about the rules: from the lists of properties up to operations. *)
From Verif Require Import Match MatchFacts MatchFacts2 MatchFacts3 SyntaxSpec SyntaxFacts.
Local Open Scope string_scope. Local Open Scope list_scope.

Lemma more_inv {X} (x : option X) o y rest : more x o = Some (More y rest) -> x = Some y /\ rest = trees o.
Proof. unfold more. destruct x; [|discriminate]. now intros [= <- <-]. Qed.
Lemma more_some {X} (x : X) rest : more (Some x) (tt_rounds rest) = Some (More x rest).
Proof. unfold more. cbn. now rewrite trees_tt. Qed.
Lemma option_map_inv {A B} (f : A -> B) o y : option_map f o = Some y -> exists x, o = Some x /\ y = f x.
Proof. destruct o; [|discriminate]. intros [= <-]. eauto. Qed.
Lemma method_of_word k m : method_of k = Some m <-> k = u (method_word m).
Proof.
  split.
  - unfold method_of. repeat match goal with |- context [str_eqb ?a ?b] => destruct (str_eqb_spec a b) as [->|_] end; intros H; now inversion H.
  - intros ->. now destruct m.
Qed.
Lemma location_of_word k i : location_of k = Some i <-> k = u (location_word i).
Proof.
  split.
  - unfold location_of. repeat match goal with |- context [str_eqb ?a ?b] => destruct (str_eqb_spec a b) as [->|_] end; intros H; now inversion H.
  - intros ->. now destruct i.
Qed.
Lemma kind_of_word k i : kind_of k = Some i <-> k = u (kind_word i).
Proof.
  split.
  - unfold kind_of. repeat match goal with |- context [str_eqb ?a ?b] => destruct (str_eqb_spec a b) as [->|_] end; intros H; now inversion H.
  - intros ->. now destruct i.
Qed.

(** case analysis on which rule it is *)
Ltac which_rule Hin :=
  hnf in Hin;
  match type of Hin with
  | _ \/ _ => destruct Hin as [Hin|Hin]; [subst|which_rule Hin]
  | False => destruct Hin
  end.
Ltac break_match H :=
  repeat match type of H with
  | context [match ?x with _ => _ end] => destruct x eqn:?; try discriminate H
  end.
Ltac skip := rewrite rule_skip by (apply key_not; reflexivity).
Ltac skip_end := rewrite rule_skip by (apply key_end).
Ltac other := match goal with H : more _ _ = Some (More _ _) |- _ => apply more_inv in H; destruct H as [H ->] end.

Section Facts.
  Variable C : caller.
  Hypothesis HC : rust_like C.
  Notation Goes := (Goes (begins C) (expr_at C) (path_at C)).
  Notation matches := (matches (begins C) (expr_at C) (path_at C)).
  Notation sm := (sm (begins C) (expr_at C) (path_at C)).

  Lemma stop_last {X} (rs : list (rule (munched X))) ts : (forall r b, In r rs -> rhs r b <> Some Stop) ->
    match_rules C (rs ++ [stop_rule]) ts = Some Stop -> ts = [] \/ ts = [COMMA].
  Proof.
    intros Hn H. apply rules_in in H. destruct H as (r & b & Hin & Hs & Hx). apply in_app_or in Hin.
    destruct Hin as [Hin|[<-|[]]]; [now destruct (Hn _ b Hin)|]. now apply inv_opt_comma in Hs.
  Qed.
  Lemma more_no_stop {X} (x : option X) o : more x o <> Some Stop.
  Proof. unfold more. destruct x; discriminate. Qed.
  Ltac no_stop :=
    let r := fresh in let b := fresh in let Hin := fresh in let Hx := fresh in
    intros r b Hin Hx; which_rule Hin; cbn [rhs] in Hx; break_match Hx; try (now apply more_no_stop in Hx); try discriminate Hx.

  Lemma stop_hit {X} : match_rules C [@stop_rule X] [] = Some Stop /\ match_rules C [@stop_rule X] [COMMA] = Some Stop.
  Proof. split; reflexivity. Qed.

  (** *** entries *)
  Lemma entry_expr {X Y} key (val : list tree -> option X) (R : list tree -> X -> Prop) (wrap : X -> Y) its x rest rs f :
    (forall e x, R e x -> an_expr C e /\ val e = Some x) ->
    (forall e o, f [BToks e; BRep o] = more (option_map wrap (val e)) o) ->
    entry key R its x -> match_rules C (Build_rule [kw key; pu ":"; PV FExpr; pu ","; tts] f :: rs) (its ++ COMMA :: rest) = Some (More (wrap x) rest).
  Proof.
    intros HR Hf (v & -> & Hv). destruct (HR _ _ Hv) as [He Hval]. cbn [app]. rewrite (rule_hit C (Build_rule _ _) _ _ _ (key_expr C HC key v rest He)).
    cbn [rhs]. rewrite Hf, Hval. apply more_some.
  Qed.
  Lemma entry_path {Y} key (wrap : ty -> Y) its x rest rs f :
    (forall e o, f [BToks e; BRep o] = more (option_map wrap (type_of C e)) o) ->
    entry key (type C) its x -> match_rules C (Build_rule [kw key; pu ":"; PV FPath; pu ","; tts] f :: rs) (its ++ COMMA :: rest) = Some (More (wrap x) rest).
  Proof.
    intros Hf (v & -> & He & Hval). cbn [app]. rewrite (rule_hit C (Build_rule _ _) _ _ _ (key_path C HC key v rest He)).
    cbn [rhs]. rewrite Hf, Hval. apply more_some.
  Qed.
  Lemma entry_braces {X Y} key (val : list tree -> option X) (R : list tree -> X -> Prop) (wrap : X -> Y) its x rest rs f :
    (forall p x, R p x -> val p = Some x) ->
    (forall p o, f [BRep (tt_rounds p); BRep o] = more (option_map wrap (val p)) o) ->
    entry key (braced R) its x -> match_rules C (Build_rule [kw key; pu ":"; PG Brace [tts]; pu ","; tts] f :: rs) (its ++ COMMA :: rest) = Some (More (wrap x) rest).
  Proof.
    intros HR Hf (v & -> & p & -> & Hv). cbn [app]. rewrite (rule_hit C (Build_rule _ _) _ _ _ (key_braces C key p rest)).
    cbn [rhs]. rewrite Hf, (HR _ _ Hv). apply more_some.
  Qed.
  Lemma text_val e s : text C e s -> an_expr C e /\ text_of C e = Some s. Proof. auto. Qed.
  Lemma ref_text_val e s : ref_text C e s -> an_expr C e /\ text_of_ref C e = Some s. Proof. auto. Qed.
  Lemma truth_val e s : truth C e s -> an_expr C e /\ bool_of C e = Some s. Proof. auto. Qed.

  (** skipping keys *)
  Ltac at_key := match goal with H : entry _ _ ?its _ |- _ => let v := fresh "v" in let Hv := fresh "Hv" in
      pose proof H as Hv; destruct Hv as (v & -> & _); cbn [app] end.
  Lemma entry_skip {X Y} key key' (R : list tree -> X -> Prop) its x rest (rs : list (rule Y)) ps f :
    entry key R its x -> str_eqb (u key') (u key) = false ->
    match_rules C (Build_rule (kw key' :: ps) f :: rs) (its ++ COMMA :: rest) = match_rules C rs (its ++ COMMA :: rest).
  Proof. intros (v & -> & _) Hk. cbn [app]. apply rule_skip. apply key_not. exact Hk. Qed.
  Ltac next H := rewrite (entry_skip _ _ _ _ _ _ _ _ _ H) by reflexivity.

  (** *** http security schemes *)
  Lemma http_spec ts xs : munch_all C (http_rules C) ts = Some xs <-> comma_list (http_entry C) ts xs.
  Proof.
    apply munch_spec.
    - intros ts0. apply (stop_last (firstn 3 (http_rules C))). no_stop.
    - intros ts0 x rest H. apply rules_in in H. destruct H as (r & b & Hin & Hs & Hx). which_rule Hin; cbn [lhs rhs stop_rule] in *.
      + apply (inv_key_ident C) in Hs. destruct Hs as (n & o & -> & Hn & ->). other. apply option_map_inv in Hx. destruct Hx as (k & Hk & ->).
        apply kind_of_word in Hk. subst n. rewrite trees_tt. eexists. split; [reflexivity|]. eexists. split; reflexivity.
      + apply (inv_key_expr C HC) in Hs. destruct Hs as (e & o & -> & He & ->). other. apply option_map_inv in Hx. destruct Hx as (k & Hk & ->).
        rewrite trees_tt. eexists. split; [reflexivity|]. eexists. split; [reflexivity|]. split; assumption.
      + apply (inv_key_expr C HC) in Hs. destruct Hs as (e & o & -> & He & ->). other. apply option_map_inv in Hx. destruct Hx as (k & Hk & ->).
        rewrite trees_tt. eexists. split; [reflexivity|]. eexists. split; [reflexivity|]. split; assumption.
      + discriminate.
    - unfold http_rules. do 3 skip_end. apply stop_hit.
    - unfold http_rules. do 3 skip. apply stop_hit.
    - intros its x rest Hi. unfold http_rules. destruct x as [k|s|s]; cbn [http_entry] in Hi.
      + destruct Hi as (v & -> & ->). cbn [app]. rewrite (rule_hit C (Build_rule _ _) _ _ _ (key_ident C "scheme" (u (kind_word k)) rest ltac:(destruct k; discriminate))).
        cbn [rhs]. rewrite (proj2 (kind_of_word _ k) eq_refl). apply more_some.
      + next Hi. eapply (entry_expr "bearer_format" (text_of C)); [exact text_val|reflexivity|exact Hi].
      + next Hi. next Hi. eapply (entry_expr "description" (text_of C)); [exact text_val|reflexivity|exact Hi].
  Qed.
  Lemma key_spec ts xs : munch_all C (key_rules C) ts = Some xs <-> comma_list (key_entry C) ts xs.
  Proof.
    apply munch_spec.
    - intros ts0. apply (stop_last (firstn 3 (key_rules C))). no_stop.
    - intros ts0 x rest H. apply rules_in in H. destruct H as (r & b & Hin & Hs & Hx). which_rule Hin; cbn [lhs rhs stop_rule] in *.
      + apply (inv_key_ident C) in Hs. destruct Hs as (n & o & -> & Hn & ->). other. apply option_map_inv in Hx. destruct Hx as (k & Hk & ->).
        apply location_of_word in Hk. subst n. rewrite trees_tt. eexists. split; [reflexivity|]. eexists. split; reflexivity.
      + apply (inv_key_expr C HC) in Hs. destruct Hs as (e & o & -> & He & ->). other. apply option_map_inv in Hx. destruct Hx as (k & Hk & ->).
        rewrite trees_tt. eexists. split; [reflexivity|]. eexists. split; [reflexivity|]. split; assumption.
      + apply (inv_key_expr C HC) in Hs. destruct Hs as (e & o & -> & He & ->). other. apply option_map_inv in Hx. destruct Hx as (k & Hk & ->).
        rewrite trees_tt. eexists. split; [reflexivity|]. eexists. split; [reflexivity|]. split; assumption.
      + discriminate.
    - unfold key_rules. do 3 skip_end. apply stop_hit.
    - unfold key_rules. do 3 skip. apply stop_hit.
    - intros its x rest Hi. unfold key_rules. destruct x as [k|s|s]; cbn [key_entry] in Hi.
      + destruct Hi as (v & -> & ->). cbn [app]. rewrite (rule_hit C (Build_rule _ _) _ _ _ (key_ident C "parameter_in" (u (location_word k)) rest ltac:(destruct k; discriminate))).
        cbn [rhs]. rewrite (proj2 (location_of_word _ k) eq_refl). apply more_some.
      + next Hi. eapply (entry_expr "name" (text_of C)); [exact text_val|reflexivity|exact Hi].
      + next Hi. next Hi. eapply (entry_expr "description" (text_of C)); [exact text_val|reflexivity|exact Hi].
  Qed.

  (** *** the properties of parameters *)
  Lemma param_prop_spec ts xs : munch_all C (param_prop_rules C) ts = Some xs <-> comma_list (param_prop_entry C) ts xs.
  Proof.
    apply munch_spec.
    - intros ts0. apply (stop_last (firstn 4 (param_prop_rules C))). no_stop.
    - intros ts0 x rest H. apply rules_in in H. destruct H as (r & b & Hin & Hs & Hx). which_rule Hin; cbn [lhs rhs stop_rule] in *.
      1-3: apply (inv_key_expr C HC) in Hs; destruct Hs as (e & o & -> & He & ->); other; apply option_map_inv in Hx; destruct Hx as (k & Hk & ->);
        rewrite trees_tt; eexists; (split; [reflexivity|]); eexists; (split; [reflexivity|]); split; assumption.
      + apply (inv_key_path C HC) in Hs. destruct Hs as (e & o & -> & He & ->). other. apply option_map_inv in Hx. destruct Hx as (k & Hk & ->).
        rewrite trees_tt. eexists. split; [reflexivity|]. eexists. split; [reflexivity|]. split; assumption.
      + discriminate.
    - unfold param_prop_rules. do 4 skip_end. apply stop_hit.
    - unfold param_prop_rules. do 4 skip. apply stop_hit.
    - intros its x rest Hi. unfold param_prop_rules. destruct x as [s|b|b|t]; cbn [param_prop_entry] in Hi.
      + eapply (entry_expr "description" (text_of C)); [exact text_val|reflexivity|exact Hi].
      + next Hi. eapply (entry_expr "required" (bool_of C)); [exact truth_val|reflexivity|exact Hi].
      + do 2 next Hi. eapply (entry_expr "deprecated" (bool_of C)); [exact truth_val|reflexivity|exact Hi].
      + do 3 next Hi. eapply (entry_path "schema"); [reflexivity|exact Hi].
  Qed.

  (** *** request bodies in braces *)
  Lemma body_spec ts xs : munch_all C (body_rules C) ts = Some xs <-> comma_list (body_entry C) ts xs.
  Proof.
    apply munch_spec.
    - intros ts0. apply (stop_last (firstn 3 (body_rules C))). no_stop.
    - intros ts0 x rest H. apply rules_in in H. destruct H as (r & b & Hin & Hs & Hx). which_rule Hin; cbn [lhs rhs stop_rule] in *.
      + apply (inv_key_path C HC) in Hs. destruct Hs as (e & o & -> & He & ->). other. apply option_map_inv in Hx. destruct Hx as (k & Hk & ->).
        rewrite trees_tt. eexists. split; [reflexivity|]. eexists. split; [reflexivity|]. split; assumption.
      + apply (inv_key_lit C) in Hs. destruct Hs as (l & v & o & -> & Hl & ->). other. apply option_map_inv in Hx. destruct Hx as (k & Hk & ->).
        rewrite trees_tt. eexists. split; [reflexivity|]. eexists. split; [reflexivity|]. eapply str_lit_form; eassumption.
      + apply (inv_key_lit C) in Hs. destruct Hs as (l & v & o & -> & Hl & ->). other. apply option_map_inv in Hx. destruct Hx as (k & Hk & ->).
        rewrite trees_tt. eexists. split; [reflexivity|]. eexists. split; [reflexivity|]. eapply bool_lit_form; eassumption.
      + discriminate.
    - unfold body_rules. do 3 skip_end. apply stop_hit.
    - unfold body_rules. do 3 skip. apply stop_hit.
    - intros its x rest Hi. unfold body_rules. destruct x as [t|s|b]; cbn [body_entry] in Hi.
      + eapply (entry_path "schema"); [reflexivity|exact Hi].
      + next Hi. destruct Hi as (v & -> & ->). cbn [app]. rewrite (rule_hit C (Build_rule _ _) _ _ _ (key_lit C "description" _ _ rest (lf_lit (TlStr s)))). apply more_some.
      + do 2 next Hi. destruct Hi as (v & -> & ->). cbn [app]. rewrite (rule_hit C (Build_rule _ _) _ _ _ (key_lit C "required" _ _ rest (lf_bool b))). apply more_some.
  Qed.

  (** *** groups in front *)
  Lemma http_head n p rest : p <> [] ->
    matches [PG Paren [kw "http"; PV FLit]; pu ":"; PG Brace [tts1]; pu ","; tts]
      ([TkGr Paren [tk_id "http"; TkLit (TlStr n)]; COLON_TK; TkGr Brace p] ++ COMMA :: rest) =
    Match [BLit (VStr n); BRep (tt_rounds p); BRep (tt_rounds rest)].
  Proof.
    intros Hp. apply matches_goes. cbn [map app]. eapply goes_grp; [cbn [map]; apply goes_kw, goes_lit, goes_done|].
    cbn [rev app]. apply goes_pu, goes_braced1; [exact Hp|]. apply goes_comma_other.
  Qed.
  Lemma expr_all e cur k r : an_expr C e -> Goes [(BToks e :: cur, k)] [] r -> Goes [(cur, KP (PV FExpr) :: k)] e r.
  Proof. intros He H. rewrite <- (app_nil_r e). apply goes_expr; [exact HC|exact He|now left|exact H]. Qed.
  Lemma path_all e cur k r : a_path C e -> Goes [(BToks e :: cur, k)] [] r -> Goes [(cur, KP (PV FPath) :: k)] e r.
  Proof. intros He H. rewrite <- (app_nil_r e). apply goes_path; [exact HC|exact He|now left|exact H]. Qed.
  Lemma word_expr s e : an_expr C e -> Goes [([], map KP [kw s; PV FExpr])] (tk_id s :: e) (Match [BToks e]).
  Proof. intros He. cbn [map]. apply goes_kw, expr_all; [exact He|]. apply goes_done. Qed.
  Lemma word_name_path s n p : a_name n -> a_path C p ->
    Goes [([], map KP [kw s; PV FIdent; pu ":"; PV FPath])] (tk_id s :: TkId n :: COLON_TK :: p) (Match [BId n; BToks p]).
  Proof. intros Hn He. cbn [map]. apply goes_kw, goes_ident; [exact Hn|]. apply goes_pu, path_all; [exact He|]. apply goes_done. Qed.
  Lemma word_not s s' ps l : str_eqb (u s) (u s') = false -> Goes [([], map KP (kw s :: ps))] (tk_id s' :: l) NoMatch.
  Proof. intros H. cbn [map]. now apply goes_tok_not. Qed.
  Lemma inv_word_expr s l b : sm [kw s; PV FExpr] l [] b -> exists e, l = tk_id s :: e /\ an_expr C e /\ b = [BToks e].
  Proof.
    intros H. apply inv_tok in H. destruct H as (i & -> & H). apply (inv_expr C HC) in H. destruct H as (e & i' & b' & -> & He & -> & H).
    apply inv_nil in H. destruct H as [-> ->]. exists e. rewrite app_nil_r. split; [reflexivity|]. split; [apply He; now left|reflexivity].
  Qed.
  Lemma inv_word_name_path s l b : sm [kw s; PV FIdent; pu ":"; PV FPath] l [] b ->
    exists n p, l = tk_id s :: TkId n :: COLON_TK :: p /\ a_name n /\ a_path C p /\ b = [BId n; BToks p].
  Proof.
    intros H. apply inv_tok in H. destruct H as (i & -> & H). apply inv_ident in H. destruct H as (n & i1 & b' & -> & Hn & -> & H).
    apply inv_tok in H. destruct H as (i2 & -> & H). apply (inv_path C HC) in H. destruct H as (e & i' & b2 & -> & He & -> & H).
    apply inv_nil in H. destruct H as [-> ->]. exists n, e. rewrite app_nil_r. repeat split; [exact Hn|apply He; now left].
  Qed.

  Lemma scheme_spec ts xs : munch_all C (scheme_rules C) ts = Some xs <-> comma_list (scheme_entry C) ts xs.
  Proof.
    apply munch_spec.
    - intros ts0. apply (stop_last (firstn 3 (scheme_rules C))). no_stop.
    - intros ts0 x rest H. apply rules_in in H. destruct H as (r & b & Hin & Hs & Hx). which_rule Hin; cbn [lhs rhs stop_rule] in *.
      + discriminate.
      + apply inv_grp in Hs. destruct Hs as (l & i & b1 & b2 & -> & H1 & H2 & ->).
        apply inv_tok in H1. destruct H1 as (i1 & -> & H1). apply inv_lit in H1. destruct H1 as (lt & v & i2 & b' & -> & Hl & -> & H1).
        apply inv_nil in H1. destruct H1 as [-> ->]. apply inv_tok in H2. destruct H2 as (i3 & -> & H2).
        apply inv_grp in H2. destruct H2 as (p & i4 & b3 & b4 & -> & H3 & H4 & ->). apply inv_tts1 in H3. destruct H3 as [-> Hp].
        apply inv_comma_other in H4. destruct H4 as (o & -> & ->). cbn [app] in Hx. rewrite trees_tt in Hx.
        destruct (str_lit v) as [n|] eqn:En; [|discriminate]. destruct (munch_all C (http_rules C) p) as [props|] eqn:Ep; [|discriminate].
        other. injection Hx as <-. rewrite trees_tt. apply (str_lit_form _ _ _ Hl) in En. subst lt. apply http_spec in Ep.
        exists [TkGr Paren [tk_id "http"; TkLit (TlStr n)]; COLON_TK; TkGr Brace p]. split; [reflexivity|]. now constructor.
      + apply inv_grp in Hs. destruct Hs as (l & i & b1 & b2 & -> & H1 & H2 & ->). apply inv_word_expr in H1. destruct H1 as (e & -> & He & ->).
        apply inv_tok in H2. destruct H2 as (i3 & -> & H2).
        apply inv_grp in H2. destruct H2 as (p & i4 & b3 & b4 & -> & H3 & H4 & ->). apply inv_tts1 in H3. destruct H3 as [-> Hp].
        apply inv_comma_other in H4. destruct H4 as (o & -> & ->). cbn [app] in Hx. rewrite trees_tt in Hx.
        destruct (text_of C e) as [n|] eqn:En; [|discriminate]. destruct (munch_all C (key_rules C) p) as [props|] eqn:Ep; [|discriminate].
        other. injection Hx as <-. rewrite trees_tt. apply key_spec in Ep.
        exists [TkGr Paren (tk_id "apiKey" :: e); COLON_TK; TkGr Brace p]. split; [reflexivity|]. constructor; [now split|assumption|assumption].
      + discriminate.
    - reflexivity.
    - reflexivity.
    - intros its x rest Hi. unfold scheme_rules. destruct Hi as [n p props Hp Hl|e n p props [He Hn] Hp Hl].
      + rewrite rule_skip by (apply matches_goes; cbn [map lhs]; now apply goes_frag_not).
        rewrite (rule_hit C (Build_rule _ _) _ _ _ (http_head n p rest Hp)). cbn [rhs str_lit]. rewrite trees_tt, (proj2 (http_spec _ _) Hl). apply more_some.
      + rewrite rule_skip by (apply matches_goes; cbn [map lhs]; now apply goes_frag_not).
        rewrite rule_skip by (apply matches_goes; cbn [map lhs app]; apply goes_grp_inside; now apply word_not).
        erewrite rule_hit; cycle 1.
        { apply matches_goes. cbn [map app lhs]. eapply goes_grp; [now apply word_expr|]. cbn [rev app].
          apply goes_pu, goes_braced1; [exact Hp|]. apply goes_comma_other. }
        cbn [rhs rev app]. rewrite trees_tt, Hn, (proj2 (key_spec _ _) Hl). apply more_some.
  Qed.

  Lemma param_spec ts xs : munch_all C (param_rules C) ts = Some xs <-> comma_list (param_entry C) ts xs.
  Proof.
    apply munch_spec.
    - intros ts0. apply (stop_last (firstn 4 (param_rules C))). no_stop.
    - intros ts0 x rest H. apply rules_in in H. destruct H as (r & b & Hin & Hs & Hx). which_rule Hin; cbn [lhs rhs stop_rule] in *.
      + apply inv_grp in Hs. destruct Hs as (l & i & b1 & b2 & -> & H1 & H2 & ->). apply inv_word_expr in H1. destruct H1 as (e & -> & He & ->).
        apply inv_tok in H2. destruct H2 as (i3 & -> & H2).
        apply inv_grp in H2. destruct H2 as (p & i4 & b3 & b4 & -> & H3 & H4 & ->). apply inv_tts in H3. subst b3.
        apply inv_comma_other in H4. destruct H4 as (o & -> & ->). cbn [app] in Hx. rewrite trees_tt in Hx.
        destruct (text_of C e) as [n|] eqn:En; [|discriminate]. destruct (munch_all C (param_prop_rules C) p) as [props|] eqn:Ep; [|discriminate].
        other. injection Hx as <-. rewrite trees_tt. apply param_prop_spec in Ep.
        exists [TkGr Paren (tk_id "header" :: e); COLON_TK; TkGr Brace p]. split; [reflexivity|]. constructor; [now split|]. right. eauto.
      + apply inv_grp in Hs. destruct Hs as (l & i & b1 & b2 & -> & H1 & H2 & ->). apply inv_word_expr in H1. destruct H1 as (e & -> & He & ->).
        apply inv_comma_other in H2. destruct H2 as (o & -> & ->). cbn [app] in Hx. other. apply option_map_inv in Hx. destruct Hx as (n & En & ->).
        rewrite trees_tt. exists [TkGr Paren (tk_id "header" :: e)]. split; [reflexivity|]. constructor; [now split|]. now left.
      + apply inv_grp in Hs. destruct Hs as (l & i & b1 & b2 & -> & H1 & H2 & ->). apply inv_word_name_path in H1. destruct H1 as (n & t & -> & Hn & He & ->).
        apply inv_tok in H2. destruct H2 as (i3 & -> & H2).
        apply inv_grp in H2. destruct H2 as (p & i4 & b3 & b4 & -> & H3 & H4 & ->). apply inv_tts in H3. subst b3.
        apply inv_comma_other in H4. destruct H4 as (o & -> & ->). cbn [app] in Hx. rewrite trees_tt in Hx.
        destruct (type_of C t) as [t'|] eqn:En; [|discriminate]. destruct (munch_all C (param_prop_rules C) p) as [props|] eqn:Ep; [|discriminate].
        other. injection Hx as <-. rewrite trees_tt. apply param_prop_spec in Ep.
        exists [TkGr Paren (tk_id "query" :: TkId n :: COLON_TK :: t); COLON_TK; TkGr Brace p]. split; [reflexivity|].
        constructor; [assumption|now split|]. right. eauto.
      + apply inv_grp in Hs. destruct Hs as (l & i & b1 & b2 & -> & H1 & H2 & ->). apply inv_word_name_path in H1. destruct H1 as (n & t & -> & Hn & He & ->).
        apply inv_comma_other in H2. destruct H2 as (o & -> & ->). cbn [app] in Hx. other. apply option_map_inv in Hx. destruct Hx as (t' & En & ->).
        rewrite trees_tt. exists [TkGr Paren (tk_id "query" :: TkId n :: COLON_TK :: t)]. split; [reflexivity|]. constructor; [assumption|now split|]. now left.
      + discriminate.
    - reflexivity.
    - reflexivity.
    - intros its x rest Hi. unfold param_rules.
      assert (NB : forall cur ts, Goes [(cur, map KP [pu ":"; PG Brace [tts]; pu ","; tts])] (COMMA :: ts) NoMatch)
        by (intros; cbn [map]; apply goes_tok_not; reflexivity).
      destruct Hi as [e n ps l [He Hn] Hp|n p t ps l Hn [He Ht] Hp].
      + destruct Hp as [[-> ->]|(pr & -> & Hp)].
        * rewrite rule_skip by (apply matches_goes; cbn [map lhs app]; eapply goes_grp; [now apply word_expr|]; apply NB).
          erewrite rule_hit; cycle 1.
          { apply matches_goes. cbn [map app lhs]. eapply goes_grp; [now apply word_expr|]. cbn [rev app]. apply goes_comma_other. }
          cbn [rhs rev app]. rewrite Hn. apply more_some.
        * erewrite rule_hit; cycle 1.
          { apply matches_goes. cbn [map app lhs]. eapply goes_grp; [now apply word_expr|]. cbn [rev app].
            apply goes_pu, goes_braced. apply goes_comma_other. }
          cbn [rhs rev app]. rewrite trees_tt, Hn, (proj2 (param_prop_spec _ _) Hp). apply more_some.
      + do 2 rewrite rule_skip by (apply matches_goes; cbn [map lhs app]; apply goes_grp_inside; now apply word_not).
        destruct Hp as [[-> ->]|(pr & -> & Hp)].
        * rewrite rule_skip by (apply matches_goes; cbn [map lhs app]; eapply goes_grp; [now apply word_name_path|]; apply NB).
          erewrite rule_hit; cycle 1.
          { apply matches_goes. cbn [map app lhs]. eapply goes_grp; [now apply word_name_path|]. cbn [rev app]. apply goes_comma_other. }
          cbn [rhs rev app]. rewrite Ht. apply more_some.
        * erewrite rule_hit; cycle 1.
          { apply matches_goes. cbn [map app lhs]. eapply goes_grp; [now apply word_name_path|]. cbn [rev app].
            apply goes_pu, goes_braced. apply goes_comma_other. }
          cbn [rhs rev app]. rewrite trees_tt, Ht, (proj2 (param_prop_spec _ _) Hp). apply more_some.
  Qed.
End Facts.
