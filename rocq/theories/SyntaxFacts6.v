(** Facts about the rules: operations. *)
From Verif Require Import Match MatchFacts MatchFacts2 MatchFacts3 SyntaxSpec SyntaxFacts SyntaxFacts2 SyntaxFacts3 SyntaxFacts4 SyntaxFacts5.
Local Open Scope string_scope. Local Open Scope list_scope.

Section Facts.
  Variable C : caller.
  Hypothesis HC : rust_like C.
  Notation Goes := (Goes (begins C) (expr_at C) (path_at C)).
  Notation matches := (matches (begins C) (expr_at C) (path_at C)).
  Notation sm := (sm (begins C) (expr_at C) (path_at C)).
  Notation dead := (dead (begins C)).
  Notation item_ok := (item_ok (begins C) (expr_at C) (path_at C)).
  Notation path_entry := (path_entry C).
  Notation op_entry := (op_entry C).

  (** *** tags *)
  Definition tag_name (b : list binding) : option str := match b with [BId s] => Some s | _ => None end.
  Definition tag_word (t : list tree) (n : str) : Prop := t = [TkId n] /\ a_name n.
  Lemma tag_sound i rest b x : sm [PV FIdent] i rest b -> stops [COMMA] rest -> tag_name b = Some x -> exists its, i = its ++ rest /\ tag_word its x.
  Proof.
    intros H _ Hx. apply inv_ident in H. destruct H as (n & i' & b' & -> & Hn & -> & H). apply inv_nil in H. destruct H as [-> ->].
    injection Hx as ->. exists [TkId x]. now split.
  Qed.
  Lemma tag_item its x : tag_word its x -> exists b, item_ok [COMMA] [COMMA] (PV FIdent) [] its b /\ tag_name b = Some x.
  Proof.
    intros [-> Hn]. exists [BId x]. split; [|reflexivity]. split.
    - eexists _, _. split; [reflexivity|]. intros a [<-|[]]. reflexivity.
    - intros K rest r _ _ H. cbn [app map]. apply goes_ident; assumption.
  Qed.
  Notation tags_pat := (PG Brace [sep_by_commas [PV FIdent]; opt_comma]).
  Lemma key_tags p l rest : loose_list tag_word p l -> exists bs c,
    matches [kw "tags"; pu ":"; tags_pat; pu ","; tts] (tk_id "tags" :: COLON_TK :: TkGr Brace p :: COMMA :: rest) =
    Match [BRep bs; BRep c; BRep (tt_rounds rest)] /\ all_some tag_name bs = Some l.
  Proof.
    intros H. destruct (list_complete C _ (PV FIdent) [] tag_name tag_word I tag_item p l H) as (bs & c & Hg & Hb); [intros; split; reflexivity|].
    exists bs, c. split; [|exact Hb]. apply matches_goes. cbn [map]. apply goes_kw, goes_pu. eapply goes_grp; [exact Hg|]. cbn [rev app]. apply goes_comma_other.
  Qed.
  Lemma inv_tags ts b : sm [kw "tags"; pu ":"; tags_pat; pu ","; tts] ts [] b ->
    exists p bs c rest, ts = [tk_id "tags"; COLON_TK; TkGr Brace p] ++ COMMA :: rest /\ b = [BRep bs; BRep c; BRep (tt_rounds rest)] /\
      forall l, all_some tag_name bs = Some l -> loose_list tag_word p l.
  Proof.
    intros H. apply inv_tok in H. destruct H as (i1 & -> & H). apply inv_tok in H. destruct H as (i2 & -> & H).
    apply inv_grp in H. destruct H as (p & i3 & b1 & b2 & -> & H1 & H & ->). apply inv_comma_other in H. destruct H as (rest & -> & ->).
    destruct (list_sound C _ (PV FIdent) [] tag_name tag_word tag_sound _ _ H1) as (bs & c & -> & Hl). exists p, bs, c, rest. auto.
  Qed.

  (** *** responses *)
  Definition desc_binding (d : option str) : list (list binding) := match d with None => [] | Some s => [[BLit (VStr s)]] end.
  Lemma goes_response c d ds K fs r : response_description ds d ->
    Goes [([BRep (desc_binding d); BLit (VInt c)], K)] fs r ->
    Goes [([], KP (PV FLit) :: KP (opt [PG Paren [PV FLit]]) :: KP (pu ":") :: K)] (TkLit (TlInt c) :: ds ++ COLON_TK :: fs) r.
  Proof.
    intros Hd H. apply goes_lit. cbn [lit_value]. destruct d as [s|]; cbn [response_description desc_binding] in *; subst ds; cbn [app].
    - eapply opt_in; [exact I|reflexivity|repeat split|]. cbn [map app]. eapply goes_grp; [cbn [map]; apply goes_lit, goes_done|].
      cbn [rev app lit_value]. eapply opt_done; [reflexivity|]. apply goes_pu. exact H.
    - eapply opt_out; [exact I|reflexivity|repeat split|]. apply goes_pu. exact H.
  Qed.
  Lemma inv_response K ts b : sm (response_head ++ K) ts [] b ->
    exists l v ds d fs b', ts = l ++ ds ++ COLON_TK :: fs /\ lit_form l v /\ b = BLit v :: BRep d :: b' /\ sm K fs [] b' /\
      forall o, opt_str_lit d = Some o -> response_description ds o.
  Proof.
    intros H. apply inv_lit in H. destruct H as (l & v & i & b1 & -> & Hl & -> & H). apply inv_opt in H.
    destruct H as [(b2 & -> & H)|(i' & b2 & b3 & H1 & -> & H)]; apply inv_tok in H; destruct H as (fs & -> & H).
    - exists l, v, [], [], fs, b2. repeat split; try assumption. intros o [= <-]. reflexivity.
    - apply inv_grp in H1. destruct H1 as (ld & i2 & b4 & b5 & -> & H1 & H2 & ->). apply inv_nil in H2. destruct H2 as [E ->]. rewrite app_nil_r in *.
      apply inv_lit in H1. destruct H1 as (l2 & v2 & i3 & b6 & -> & Hl2 & -> & H1). apply inv_nil in H1. destruct H1 as [-> ->].
      exists l, v, [TkGr Paren (l2 ++ [])], [[BLit v2]], fs, b3. subst i2. repeat split; try assumption.
      intros o Ho. cbn [opt_str_lit] in Ho. apply option_map_inv in Ho. destruct Ho as (s & Hs & ->). apply (str_lit_form _ _ _ Hl2) in Hs. subst l2. reflexivity.
  Qed.
  Lemma code_form l v c : lit_form l v -> code_lit v = Some c -> l = [TkLit (TlInt c)] /\ (c < 65536)%N.
  Proof.
    intros [[]|bb|t] H; try discriminate. cbn [lit_value code_lit] in H. destruct (n <? 65536)%N eqn:E; [|discriminate]. injection H as <-.
    split; [reflexivity|]. now apply N.ltb_lt.
  Qed.
  Lemma opt_str_binding d : opt_str_lit (desc_binding d) = Some d.
  Proof. now destruct d. Qed.
  Lemma response_inv v d s x : response v d s = Some x -> exists c o f, code_lit v = Some c /\ opt_str_lit d = Some o /\ s = Some f /\ x = OpResponse c o f.
  Proof.
    unfold response. destruct (code_lit v) as [c|]; [|discriminate]. destruct (opt_str_lit d) as [o|]; [|discriminate]. destruct s as [f|]; [|discriminate].
    intros [= <-]. eauto 7.
  Qed.
  Lemma response_some c d f : (c < 65536)%N -> response (VInt c) (desc_binding d) (Some f) = Some (OpResponse c d f).
  Proof. intros H. unfold response. cbn [code_lit]. apply N.ltb_lt in H. now rewrite H, opt_str_binding. Qed.

  Lemma entry_skip {X Y} key key' (R : list tree -> X -> Prop) its x rest (rs : list (rule Y)) ps f :
    entry key R its x -> str_eqb (u key') (u key) = false ->
    match_rules C (Build_rule (kw key' :: ps) f :: rs) (its ++ COMMA :: rest) = match_rules C rs (its ++ COMMA :: rest).
  Proof. intros (v & -> & _) Hk. cbn [app]. apply rule_skip. apply key_not. exact Hk. Qed.
  Ltac next H := rewrite (entry_skip _ _ _ _ _ _ _ _ _ H) by reflexivity.

  Section Nested.
    Variable paths : list tree -> option (list path_decl).

    (** the rules for responses *)
    Notation response_rules := (skipn 10 (op_rules C paths)).
    Lemma to_responses c ds fs rest : match_rules C (op_rules C paths) ((TkLit (TlInt c) :: ds ++ COLON_TK :: fs) ++ COMMA :: rest) =
      match_rules C response_rules ((TkLit (TlInt c) :: ds ++ COLON_TK :: fs) ++ COMMA :: rest).
    Proof. cbn [app]. unfold op_rules. do 10 (rewrite rule_skip by (apply key_not; reflexivity)). reflexivity. Qed.
    Lemma response_item c d ds f fs rest : (c < 65536)%N -> response_description ds d -> response_form C fs f ->
      match_rules C (op_rules C paths) ((TkLit (TlInt c) :: ds ++ COLON_TK :: fs) ++ COMMA :: rest) = Some (More (OpResponse c d f) rest).
    Proof.
      intros Hc Hd Hf. rewrite to_responses.
      assert (G : forall K r, Goes [([BRep (desc_binding d); BLit (VInt c)], map KP K)] (fs ++ COMMA :: rest) r ->
        matches (response_head ++ K) ((TkLit (TlInt c) :: ds ++ COLON_TK :: fs) ++ COMMA :: rest) = r).
      { intros K r H. apply matches_goes. cbn [app]. rewrite <- app_assoc. cbn [app map response_head].
        eapply goes_response; [exact Hd|exact H]. }
      cbn [skipn op_rules]. destruct Hf as [| |p t [Hp Ht] Hnone|s r Hs Hr].
      - rewrite (rule_hit C (Build_rule _ _) _ _ _ (G [kw "None"; pu ","; tts] _ ltac:(cbn [map app]; apply goes_kw, goes_comma_other))).
        cbn [rhs rev app]. rewrite response_some by exact Hc. apply more_some.
      - rewrite rule_skip by (apply (G [kw "None"; pu ","; tts]); cbn [map app]; now apply goes_tok_not).
        rewrite (rule_hit C (Build_rule _ _) _ _ _ (G [PG Paren []; pu ","; tts] _ ltac:(cbn [map app]; eapply goes_grp; [apply goes_done|]; cbn [rev app]; apply goes_comma_other))).
        cbn [rhs rev app]. rewrite response_some by exact Hc. apply more_some.
      - destruct (path_head C HC p Hp) as (t0 & p' & -> & Hb).
        rewrite rule_skip.
        2:{ apply (G [kw "None"; pu ","; tts]). cbn [map app]. destruct (token_eqb (tk_id "None") t0) eqn:E.
            - apply token_eqb_eq in E. subst t0. apply goes_kw. destruct p' as [|t1 p']; [now destruct Hnone|]. cbn [app].
              destruct (token_eqb (tk_pu ",") t1) eqn:E1; [|now apply goes_tok_not]. exfalso. apply token_eqb_eq in E1. subst t1.
              (* a path of one token before a comma is complete *)
              pose proof (proj2 (path_comma C HC [tk_id "None"] p') (none_path C HC)) as Hn. cbn [app] in Hn. unfold a_path, COMMA in *. rewrite Hn in Hp. discriminate.
            - now apply goes_tok_not. }
        rewrite rule_skip.
        2:{ apply (G [PG Paren []; pu ","; tts]). cbn [map app]. apply goes_grp_not. intros l ->. destruct Hb as [[? ?]|?]; discriminate. }
        rewrite (rule_hit C (Build_rule _ _) _ _ _ (G [PV FPath; pu ","; tts] _
          ltac:(cbn [map]; apply (goes_path C HC); [exact Hp|apply stops_comma|apply goes_comma_other]))).
        cbn [rhs rev app]. rewrite Ht. cbn [option_map]. rewrite response_some by exact Hc. apply more_some.
      - rewrite rule_skip by (apply (G [kw "None"; pu ","; tts]); cbn [map app]; now apply goes_tok_not).
        rewrite rule_skip by (apply (G [PG Paren []; pu ","; tts]); cbn [map app]; now apply goes_grp_not).
        rewrite rule_skip by (apply (G [PV FPath; pu ","; tts]); cbn [map app]; now apply goes_frag_not).
        rewrite (rule_hit C (Build_rule _ _) _ _ _ (G [PG Brace [tts1]; pu ","; tts] _
          ltac:(cbn [map app]; apply goes_braced1; [exact Hs|]; apply goes_comma_other))).
        cbn [rhs rev app]. rewrite trees_tt, Hr. cbn [option_map]. rewrite response_some by exact Hc. apply more_some.
    Qed.
    Lemma op_end : match_rules C (op_rules C paths) [] = Some Stop /\ match_rules C (op_rules C paths) [COMMA] = Some Stop.
    Proof. split; reflexivity. Qed.
    Lemma op_stop ts : match_rules C (op_rules C paths) ts = Some Stop -> ts = [] \/ ts = [COMMA].
    Proof.
      apply (stop_last C (firstn 14 (op_rules C paths))). intros r b Hin Hx. which_rule Hin; cbn [rhs] in Hx; break_match Hx; now apply more_no_stop in Hx.
    Qed.

    Section Sound.
      Hypothesis Hs : forall ts ps, paths ts = Some ps -> loose_list path_entry ts ps.
      Ltac entry_done := eexists; split; [reflexivity|]; constructor; eexists; (split; [reflexivity|]).
      Lemma op_more ts x rest : match_rules C (op_rules C paths) ts = Some (More x rest) -> exists its, ts = its ++ COMMA :: rest /\ op_entry its x.
      Proof.
        intros H. pose proof H as H0. apply rules_in in H. destruct H as (r & b & Hin & Hm & Hx). which_rule Hin; cbn [lhs rhs stop_rule] in *.
        1-4: apply (inv_key_expr C HC) in Hm; destruct Hm as (e & o & -> & He & ->); other; apply option_map_inv in Hx; destruct Hx as (k & Hk & ->);
          rewrite trees_tt; entry_done; split; assumption.
        - apply inv_tags in Hm. destruct Hm as (p & bs & c & o & -> & -> & Hl). other. apply option_map_inv in Hx. destruct Hx as (k & Hk & ->).
          rewrite trees_tt. entry_done. exists p. split; [reflexivity|]. now apply Hl.
        - apply (inv_key_braces C) in Hm. destruct Hm as (p & o & -> & ->). other. apply option_map_inv in Hx. destruct Hx as (k & Hk & ->).
          rewrite trees_tt in *. entry_done. exists p. split; [reflexivity|]. now apply param_spec.
        - apply (inv_key_braces C) in Hm. destruct Hm as (p & o & -> & ->). other. apply option_map_inv in Hx. destruct Hx as (k & Hk & ->).
          rewrite trees_tt in *. eexists. split; [reflexivity|]. apply (callbacks_sound C paths Hs) in Hk.
          destruct Hk as [Hk|(q & l & n & ig & Hq & -> & ->)]; [now apply oe_callbacks|now apply oe_literal_callback].
        - apply (inv_key_braces C) in Hm. destruct Hm as (p & o & -> & ->). other. apply option_map_inv in Hx. destruct Hx as (k & Hk & ->).
          rewrite trees_tt in *. entry_done. exists p. split; [reflexivity|]. now apply security_spec.
        - apply (inv_key_braces C) in Hm. destruct Hm as (p & o & -> & ->). other. apply option_map_inv in Hx. destruct Hx as (k & Hk & ->).
          rewrite trees_tt in *. entry_done. exists p. split; [reflexivity|]. now apply body_spec.
        - apply (inv_key_path C HC) in Hm. destruct Hm as (e & o & -> & He & ->). other. apply option_map_inv in Hx. destruct Hx as (k & Hk & ->).
          rewrite trees_tt in *. entry_done. now split.
        - apply inv_response in Hm. destruct Hm as (l & v & ds & d & fs & b' & -> & Hl & -> & Hm & Hd). apply inv_tok in Hm. destruct Hm as (i & -> & Hm).
          apply inv_comma_other in Hm. destruct Hm as (o & -> & ->). other. apply response_inv in Hx. destruct Hx as (c & od & f & Hc & Ho & [= <-] & ->).
          destruct (code_form _ _ _ Hl Hc) as [-> Hc']. rewrite trees_tt. exists (TkLit (TlInt c) :: ds ++ COLON_TK :: [tk_id "None"]).
          split; [cbn [app]; now rewrite <- app_assoc|]. constructor; [assumption|now apply Hd|constructor].
        - apply inv_response in Hm. destruct Hm as (l & v & ds & d & fs & b' & -> & Hl & -> & Hm & Hd). apply inv_grp in Hm. destruct Hm as (i0 & i & b1 & b2 & -> & Hm0 & Hm & ->).
          apply inv_nil in Hm0. destruct Hm0 as [-> ->].
          apply inv_comma_other in Hm. destruct Hm as (o & -> & ->). cbn [app] in Hx. other. apply response_inv in Hx. destruct Hx as (c & od & f & Hc & Ho & [= <-] & ->).
          destruct (code_form _ _ _ Hl Hc) as [-> Hc']. rewrite trees_tt. exists (TkLit (TlInt c) :: ds ++ COLON_TK :: [TkGr Paren []]).
          split; [cbn [app]; now rewrite <- app_assoc|]. constructor; [assumption|now apply Hd|constructor].
        - apply inv_response in Hm. destruct Hm as (l & v & ds & d & fs & b' & -> & Hl & -> & Hm & Hd). apply (inv_path C HC) in Hm. destruct Hm as (e & i & b1 & -> & He & -> & Hm).
          apply inv_comma_other in Hm. destruct Hm as (o & -> & ->). specialize (He (stops_comma o)).
          other. apply response_inv in Hx. destruct Hx as (c & od & f & Hc & Ho & Hf & ->). apply option_map_inv in Hf. destruct Hf as (t & Ht & ->).
          destruct (code_form _ _ _ Hl Hc) as [-> Hc']. rewrite trees_tt in *. exists (TkLit (TlInt c) :: ds ++ COLON_TK :: e).
          assert (E : [TkLit (TlInt c)] ++ ds ++ COLON_TK :: e ++ COMMA :: o = (TkLit (TlInt c) :: ds ++ COLON_TK :: e) ++ COMMA :: o) by (cbn [app]; now rewrite <- app_assoc).
          split; [exact E|]. constructor; [assumption|now apply Hd|]. constructor; [now split|]. intros ->.
          rewrite E, (response_item c od ds RsNone [tk_id "None"] o Hc' (Hd _ Ho) (rf_none C)) in H0. discriminate.
        - apply inv_response in Hm. destruct Hm as (l & v & ds & d & fs & b' & -> & Hl & -> & Hm & Hd). apply inv_grp in Hm. destruct Hm as (i0 & i & b1 & b2 & -> & Hm0 & Hm & ->).
          apply inv_tts1 in Hm0. destruct Hm0 as [-> Hne].
          apply inv_comma_other in Hm. destruct Hm as (o & -> & ->). cbn [app] in Hx. rewrite trees_tt in Hx. other. apply response_inv in Hx. destruct Hx as (c & od & f & Hc & Ho & Hf & ->).
          apply option_map_inv in Hf. destruct Hf as (t & Ht & ->).
          destruct (code_form _ _ _ Hl Hc) as [-> Hc']. rewrite trees_tt. exists (TkLit (TlInt c) :: ds ++ COLON_TK :: [TkGr Brace i0]).
          split; [cbn [app]; now rewrite <- app_assoc|]. constructor; [assumption|now apply Hd|now constructor].
        - discriminate.
      Qed.
      Lemma ops_sound ts xs : munch_all C (op_rules C paths) ts = Some xs -> comma_list op_entry ts xs.
      Proof. apply munch_sound; [exact op_stop|exact op_more]. Qed.
    End Sound.

    Section Complete.
      Variable n : nat.
      Hypothesis Hc : forall ts ps, tokens ts < n -> loose_list path_entry ts ps -> paths ts = Some ps.
      Lemma callbacks_hit p l rest : callback_list C p l -> tokens p <= n ->
        match_rules C (op_rules C paths) ([tk_id "callbacks"; COLON_TK; TkGr Brace p] ++ COMMA :: rest) = Some (More (OpCallbacks l false) rest).
      Proof.
        intros Hl Hn. unfold op_rules. cbn [app]. do 6 (rewrite rule_skip by (apply key_not; reflexivity)).
        rewrite (rule_hit C (Build_rule _ _) _ _ _ (key_braces C "callbacks" p rest)). cbn [rhs].
        rewrite trees_tt, (callbacks_complete C paths n Hc _ _ Hl Hn). apply more_some.
      Qed.
      Lemma op_item its x rest : op_entry its x -> tokens its <= n -> match_rules C (op_rules C paths) (its ++ COMMA :: rest) = Some (More x rest).
      Proof.
        intros Hi Ht. destruct Hi as [its s Hi|its s Hi|its s Hi|its b Hi|its l Hi|its l Hi|p l Hl|p l nm ig Hp|its l Hi|its b Hi|c d ds f fs H1 H2 H3];
          [unfold op_rules..| | |unfold op_rules|unfold op_rules|].
        - eapply (entry_expr C HC "summary" (text_of_ref C)); [exact (ref_text_val C)|reflexivity|exact Hi].
        - next Hi. eapply (entry_expr C HC "operationId" (text_of_ref C)); [exact (ref_text_val C)|reflexivity|exact Hi].
        - do 2 next Hi. eapply (entry_expr C HC "description" (text_of_ref C)); [exact (ref_text_val C)|reflexivity|exact Hi].
        - do 3 next Hi. eapply (entry_expr C HC "deprecated" (bool_of C)); [exact (truth_val C)|reflexivity|exact Hi].
        - do 4 next Hi. destruct Hi as (v & -> & p & -> & Hl). cbn [app]. destruct (key_tags p l rest Hl) as (bs & c & Hm & Hb).
          rewrite (rule_hit C (Build_rule _ _) _ _ _ Hm). cbn [rhs]. fold tag_name. rewrite Hb. apply more_some.
        - do 5 next Hi. eapply (entry_braces C "parameters" (fun p => munch_all C (param_rules C) p)); [|intros; rewrite trees_tt; reflexivity|exact Hi].
          intros p y. apply param_spec. exact HC.
        - apply callbacks_hit; [now left|]. rewrite !tokens_cons, tokens_group in Ht. lia.
        - apply callbacks_hit; [right; eauto 10|]. rewrite !tokens_cons, tokens_group in Ht. lia.
        - do 7 next Hi. eapply (entry_braces C "security" (fun p => munch_all C (security_rules C) p)); [|intros; rewrite trees_tt; reflexivity|exact Hi].
          intros p y. apply security_spec.
        - do 8 next Hi. destruct Hi as (v & -> & Hv). destruct b as [l|t]; cbn [body_form] in Hv.
          + destruct Hv as (p & -> & Hl). cbn [app]. rewrite (rule_hit C (Build_rule _ _) _ _ _ (key_braces C "body" p rest)). cbn [rhs].
            rewrite trees_tt, (proj2 (body_spec C HC _ _) Hl). apply more_some.
          + destruct Hv as [Hp Hv]. cbn [app]. rewrite rule_skip.
            * rewrite (rule_hit C (Build_rule _ _) _ _ _ (key_path C HC "body" v rest Hp)). cbn [rhs]. rewrite Hv. apply more_some.
            * apply matches_goes. cbn [map lhs]. apply goes_kw, goes_pu. destruct (path_head C HC v Hp) as (t0 & p' & -> & Hb). cbn [app].
              apply goes_grp_not. intros l ->. destruct Hb as [[? ?]|?]; discriminate.
        - now apply response_item.
      Qed.
      Lemma ops_complete ts xs : comma_list op_entry ts xs -> tokens ts <= n -> munch_all C (op_rules C paths) ts = Some xs.
      Proof.
        intros H Ht. apply comma_list_within in H.
        apply (munch_complete C _ (op_rules C paths) (fun t x => op_entry t x /\ tokens t <= tokens ts)); [exact (proj1 op_end)|exact (proj2 op_end)| |exact H|lia].
        intros its x rest [Hi Hl]. apply op_item; [exact Hi|lia].
      Qed.
    End Complete.
  End Nested.
End Facts.
