(** Facts about the rules: optional parts, words, lists in one rule, and security requirements. *)
From Verif Require Import Match MatchFacts MatchFacts2 MatchFacts3 SyntaxSpec SyntaxFacts SyntaxFacts2.
Local Open Scope string_scope. Local Open Scope list_scope.

Definition AND : tree := tk_pu "&&".

Lemma both_some {A} (a b : option (list A)) l : both a b = Some l -> exists x y, a = Some x /\ b = Some y /\ l = x ++ y.
Proof. destruct a, b; try discriminate. intros [= <-]. eauto. Qed.
Lemma closure_more n : forall th l, closure n th = Some l -> closure (S n) th = Some l.
Proof.
  induction n as [|n IH]; intros [cur k] l H; [discriminate|].
  destruct k as [|[[t|d q|f|q s op]|q s op before outer] k]; try exact H.
  - cbn [closure] in H. apply both_some in H. destruct H as (x & y & Hx & Hy & ->). apply IH in Hy.
    change (both (match op with RPlus => Some [] | _ => closure (S n) (BRep [] :: cur, k) end) (closure (S n) ([], map KP q ++ KR q s op [] cur :: k)) = Some (x ++ y)).
    rewrite Hy. destruct op; try (apply IH in Hx; rewrite Hx; reflexivity). injection Hx as <-. reflexivity.
  - cbn [closure] in H. apply both_some in H. destruct H as (x & y & Hx & Hy & ->). apply IH in Hx.
    change (both (closure (S n) (BRep (before ++ [rev cur]) :: outer, k))
      (match op, s with
       | ROpt, _ => Some []
       | _, None => closure (S n) ([], map KP q ++ KR q s op (before ++ [rev cur]) outer :: k)
       | _, Some t => Some [RTok t ([], map KP q ++ KR q s op (before ++ [rev cur]) outer :: k)]
       end) = Some (x ++ y)).
    rewrite Hx. destruct op; [injection Hy as <-; reflexivity| |]; (destruct s; [injection Hy as <-; reflexivity|]; apply IH in Hy; rewrite Hy; reflexivity).
Qed.
Lemma closure_le n m th l : n <= m -> closure n th = Some l -> closure m th = Some l.
Proof. induction 1; [auto|]. intros H1. now apply closure_more, IHle. Qed.

Section Prefix.
  Variable be : tree -> bool.
  Variables el pl : list tree -> option nat.
  Lemma sm_prefix ps i r b : sm be el pl ps i r b -> exists its, i = its ++ r.
  Proof.
    revert ps i r b.
    refine (fix go ps i r b (H : sm be el pl ps i r b) {struct H} := _
      with rgo q s op i r l (H : rounds be el pl q s op i r l) {struct H} : exists its, i = its ++ r := _ for go).
    - destruct H as [i|t ps i r b H|d q l b1 ps i r b H1 H|f ps t i i' r v b H1 H2 H|q s op ps i r b Ho H|q s op ps i i' r l b H1 H].
      + now exists [].
      + destruct (go _ _ _ _ H) as [its ->]. now exists (t :: its).
      + destruct (go _ _ _ _ H) as [its ->]. now exists (TkGr d l :: its).
      + destruct (go _ _ _ _ H) as [its ->]. destruct (parse_shrinks _ _ _ _ _ _ H2) as (t' & pre & ->). exists (t' :: pre ++ its). cbn. now rewrite app_assoc.
      + exact (go _ _ _ _ H).
      + destruct (go _ _ _ _ H) as [its ->]. destruct (rgo _ _ _ _ _ _ H1) as [its' ->]. exists (its' ++ its). now rewrite app_assoc.
    - destruct H as [q s op i r b H|q t op i i' r b l Ho H H'|q op i i' r b l Ho H H'].
      + exact (go _ _ _ _ H).
      + destruct (go _ _ _ _ H) as [its ->]. destruct (rgo _ _ _ _ _ _ H') as [its' ->]. exists (its ++ t :: its'). now rewrite <- app_assoc.
      + destruct (go _ _ _ _ H) as [its ->]. destruct (rgo _ _ _ _ _ _ H') as [its' ->]. exists (its ++ its'). now rewrite <- app_assoc.
  Qed.
End Prefix.

Section Facts.
  Variable C : caller.
  Hypothesis HC : rust_like C.
  Notation Goes := (Goes (begins C) (expr_at C) (path_at C)).
  Notation Runs := (Runs (begins C) (expr_at C) (path_at C)).
  Notation matches := (matches (begins C) (expr_at C) (path_at C)).
  Notation sm := (sm (begins C) (expr_at C) (path_at C)).
  Notation rounds := (rounds (begins C) (expr_at C) (path_at C)).
  Notation dead := (dead (begins C)).

  (** *** [$( .. )?] before anything *)
  Lemma goes_eq th l ts r : closure 10 th = Some l -> (Goes [th] ts r <-> Runs l ts r).
  Proof.
    intros H. assert (E : closures [th] = Some l) by (apply closures_one; eapply closure_le; [|exact H]; unfold DEPTH; lia).
    split; [intros (rs & E' & Hr); rewrite E in E'; now injection E' as <-|intros Hr; eexists; eauto].
  Qed.
  Lemma closure_opt n p q cur k l : simple p -> closure (S n) (BRep [] :: cur, k) = Some l ->
    closure (S (S n)) (cur, KP (opt (p :: q)) :: k) = Some (l ++ [ready_of p ([], map KP q ++ KR (p :: q) None ROpt [] cur :: k)]).
  Proof.
    intros Hp Hl.
    change (both (closure (S n) (BRep [] :: cur, k)) (closure (S n) ([], KP p :: map KP q ++ KR (p :: q) None ROpt [] cur :: k)) =
      Some (l ++ [ready_of p ([], map KP q ++ KR (p :: q) None ROpt [] cur :: k)])).
    rewrite Hl, closure_simple by exact Hp. reflexivity.
  Qed.
  Lemma closure_done n ps b cur k l : closure n (BRep [rev b] :: cur, k) = Some l -> closure (S n) (b, KR ps None ROpt [] cur :: k) = Some l.
  Proof.
    intros Hl. change (both (closure n (BRep [rev b] :: cur, k)) (Some []) = Some l). rewrite Hl. unfold both. now rewrite app_nil_r.
  Qed.
  Lemma opt_closed p q cur k l : simple p -> closure 10 (BRep [] :: cur, k) = Some l ->
    closures [(cur, KP (opt (p :: q)) :: k)] = Some (l ++ [ready_of p ([], map KP q ++ KR (p :: q) None ROpt [] cur :: k)]).
  Proof.
    intros Hp Hl. apply closures_one. apply (closure_opt 18); [exact Hp|]. apply (closure_le 10 19); [lia|exact Hl].
  Qed.
  Lemma opt_in p q cur k l t ts r : simple p -> closure 10 (BRep [] :: cur, k) = Some l -> dead l t ->
    Goes [([], KP p :: map KP q ++ KR (p :: q) None ROpt [] cur :: k)] (t :: ts) r -> Goes [(cur, KP (opt (p :: q)) :: k)] (t :: ts) r.
  Proof.
    intros Hp Hl Hd H. eexists. split; [apply opt_closed; [exact Hp|exact Hl]|]. apply runs_drop; [exact Hd|]. apply (proj1 (goes_simple _ _ _ _ _ _ _ _ Hp) H).
  Qed.
  Lemma opt_out p q cur k l t ts r : simple p -> closure 10 (BRep [] :: cur, k) = Some l ->
    dead [ready_of p ([], map KP q ++ KR (p :: q) None ROpt [] cur :: k)] t ->
    Goes [(BRep [] :: cur, k)] (t :: ts) r -> Goes [(cur, KP (opt (p :: q)) :: k)] (t :: ts) r.
  Proof.
    intros Hp Hl Hd H. eexists. split; [apply opt_closed; [exact Hp|exact Hl]|]. apply runs_drop_after; [exact Hd|]. exact (proj1 (goes_eq _ _ _ _ Hl) H).
  Qed.
  Lemma opt_out_end p q cur k l b : simple p -> closure 10 (BRep [] :: cur, k) = Some l -> ends l = [b] ->
    Goes [(cur, KP (opt (p :: q)) :: k)] [] (Match b).
  Proof.
    intros Hp Hl He. eexists. split; [apply opt_closed; [exact Hp|exact Hl]|]. apply runs_end. unfold ends in *. rewrite flat_map_app, He.
    fold (ends [ready_of p ([], map KP q ++ KR (p :: q) None ROpt [] cur :: k)]). now rewrite ready_no_end.
  Qed.
  Lemma opt_done ps b cur k l ts r : closure 10 (BRep [rev b] :: cur, k) = Some l -> Goes [(BRep [rev b] :: cur, k)] ts r ->
    Goes [(b, KR ps None ROpt [] cur :: k)] ts r.
  Proof.
    intros Hl H. apply (goes_eq _ _ _ _ Hl) in H. exists l. split; [|exact H]. apply closures_one.
    apply (closure_done 19). apply (closure_le 10 19); [lia|exact Hl].
  Qed.

  (** *** a literal or a name *)
  Definition word_rules {X} (f : lval -> option X) (g : str -> option X) : list (rule X) :=
    [Build_rule [PV FLit] (fun b => match b with [BLit v] => f v | _ => None end);
     Build_rule [PV FIdent] (fun b => match b with [BId n] => g n | _ => None end)].
  Lemma word_lit {X} f g l : match_rules C (@word_rules X f g) [TkLit l] = f (lit_value l).
  Proof. unfold word_rules. erewrite rule_hit; [|apply matches_goes; cbn [map lhs]; apply goes_lit, goes_done]. reflexivity. Qed.
  Lemma word_name {X} f g n : a_variable n -> match_rules C (@word_rules X f g) [TkId n] = g n.
  Proof.
    intros (Hn & Ht & Hf). unfold word_rules. rewrite rule_skip.
    - erewrite rule_hit; [|apply matches_goes; cbn [map lhs]; apply goes_ident; [exact Hn|apply goes_done]]. reflexivity.
    - apply matches_goes. cbn [map lhs]. apply goes_frag_not. cbn [may_begin]. apply orb_false_iff. now split; apply str_eqb_neq.
  Qed.
  Lemma word_bool {X} f g (b : bool) : match_rules C (@word_rules X f g) [tk_id (if b then "true" else "false")] = f (VBool b).
  Proof. unfold word_rules. erewrite rule_hit; [|apply matches_goes; cbn [map lhs]; apply goes_bool, goes_done]. reflexivity. Qed.
  Lemma word_inv {X} f g t x : match_rules C (@word_rules X f g) [t] = Some x ->
    (exists l, t = TkLit l /\ f (lit_value l) = Some x) \/ (exists b : bool, t = tk_id (if b then "true" else "false") /\ f (VBool b) = Some x) \/
    (exists n, t = TkId n /\ a_variable n /\ g n = Some x).
  Proof.
    intros H. pose proof H as H0. apply rules_in in H. destruct H as (r & b & Hin & Hs & Hx). which_rule Hin; cbn [lhs rhs] in *.
    - apply inv_lit in Hs. destruct Hs as (ts & v & i & b' & E & Hl & -> & Hs). apply inv_nil in Hs. destruct Hs as [-> ->].
      destruct Hl; [injection E as ->; left; eauto|injection E as ->; right; left; eauto|discriminate].
    - apply inv_ident in Hs. destruct Hs as (n & i & b' & E & Hn & -> & Hs). apply inv_nil in Hs. destruct Hs as [-> ->]. injection E as ->.
      destruct (str_eq_dec n (u "true")) as [->|Ht]; [right; left; exists true; split; [reflexivity|]; now rewrite <- (word_bool f g)|].
      destruct (str_eq_dec n (u "false")) as [->|Hf]; [right; left; exists false; split; [reflexivity|]; now rewrite <- (word_bool f g)|].
      right. right. exists n. repeat split; assumption.
  Qed.
  Lemma server_text_spec t s : server_text C [t] = Some s <-> server_word C t s.
  Proof.
    change (server_text C [t]) with (match_rules C (word_rules str_lit (text_var C)) [t]). split.
    - intros H. apply word_inv in H. destruct H as [(l & -> & H)|[(b & -> & H)|(n & -> & Hn & H)]].
      + destruct l; try discriminate. injection H as ->. constructor.
      + discriminate.
      + now constructor.
    - intros [s'|n s' Hn H]; [now rewrite word_lit|now rewrite word_name].
  Qed.
  Lemma security_name_spec t f : security_name C [t] = Some f <->
    (exists n, t = TkLit (TlStr n) /\ f = SiLit n) \/ (exists n s, t = TkId n /\ a_variable n /\ scheme_var C n = Some s /\ f = SiIdent n s).
  Proof.
    change (security_name C [t]) with (match_rules C (word_rules (fun v => option_map SiLit (str_lit v)) (fun n => option_map (SiIdent n) (scheme_var C n))) [t]). split.
    - intros H. apply word_inv in H. destruct H as [(l & -> & H)|[(b & -> & H)|(n & -> & Hn & H)]].
      + destruct l; try discriminate. injection H as <-. left. eauto.
      + discriminate.
      + apply option_map_inv in H. destruct H as (s & Hs & ->). right. eauto 6.
    - intros [(n & -> & ->)|(n & s & -> & Hn & Hs & ->)]; [now rewrite word_lit|]. rewrite word_name by exact Hn. now rewrite Hs.
  Qed.

  (** *** lists in one rule *)
  Lemma comma_map {X Y} (P : list tree -> X -> Prop) (f : X -> option Y) (item : list tree -> Y -> Prop) ts l xs :
    (forall t b x, P t b -> f b = Some x -> item t x) -> comma_list P ts l -> all_some f l = Some xs -> comma_list item ts xs.
  Proof.
    intros Hi H. revert xs. induction H as [|ts b Hb|ts b rest l Hb Hl IH]; intros xs Hx; cbn in Hx.
    - injection Hx as <-. constructor.
    - destruct (f b) eqn:E; [|discriminate]. injection Hx as <-. apply cl_last. eauto.
    - destruct (f b) eqn:E; [|discriminate]. destruct (all_some f l); [|discriminate]. injection Hx as <-. apply cl_more; eauto.
  Qed.
  Lemma loose_map {X Y} (P : list tree -> X -> Prop) (f : X -> option Y) (item : list tree -> Y -> Prop) ts l xs :
    (forall t b x, P t b -> f b = Some x -> item t x) -> loose_list P ts l -> all_some f l = Some xs -> loose_list item ts xs.
  Proof. intros Hi [H|[-> ->]] Hx; [left; eauto using comma_map|]. injection Hx as <-. now right. Qed.
  Lemma sep_map {X Y} sep (P : list tree -> X -> Prop) (f : X -> option Y) (item : list tree -> Y -> Prop) ts l xs :
    (forall t b x, P t b -> f b = Some x -> item t x) -> sep_list sep P ts l -> all_some f l = Some xs -> sep_list sep item ts xs.
  Proof.
    intros Hi H. revert xs. induction H as [ts b Hb|ts b rest l Hb Hl IH]; intros xs Hx; cbn in Hx.
    - destruct (f b) eqn:E; [|discriminate]. injection Hx as <-. apply sl_last. eauto.
    - destruct (f b) eqn:E; [|discriminate]. destruct (all_some f l); [|discriminate]. injection Hx as <-. apply sl_more; eauto.
  Qed.
  Lemma strict_map {X Y} (P : list tree -> X -> Prop) (f : X -> option Y) (item : list tree -> Y -> Prop) ts l xs :
    (forall t b x, P t b -> f b = Some x -> item t x) -> strict_list P ts l -> all_some f l = Some xs -> strict_list item ts xs.
  Proof. intros Hi [H|[-> ->]] Hx; [left; eauto using sep_map|]. injection Hx as <-. now right. Qed.
  Lemma forall2_some {A B} (f : A -> option B) l m : Forall2 (fun b a => f a = Some b) m l -> all_some f l = Some m.
  Proof. intros H. apply all_some_forall2. now apply forall2_flip. Qed.

  Section OneRule.
    Variables (X : Type) (p : pat) (q : list pat) (f : list binding -> option X) (item : list tree -> X -> Prop).
    Hypothesis Hp : simple p.
    Hypothesis Hsound : forall i rest b x, sm (p :: q) i rest b -> stops [COMMA] rest -> f b = Some x -> exists its, i = its ++ rest /\ item its x.
    Hypothesis Hitem : forall its x, item its x -> exists b, item_ok (begins C) (expr_at C) (path_at C) [COMMA] [COMMA] p q its b /\ f b = Some x.
    Lemma list_sound ts b : sm [sep_by_commas (p :: q); opt_comma] ts [] b ->
      exists l c, b = [BRep l; BRep c] /\ forall xs, all_some f l = Some xs -> loose_list item ts xs.
    Proof.
      intros H. apply (inv_list C (p :: q) (fun its b => forall x, f b = Some x -> item its x)) in H.
      - destruct H as (l & c & -> & H). exists l, c. split; [reflexivity|]. intros xs Hx. eapply loose_map; [|exact H|exact Hx]. auto.
      - intros i rest b0 H1 H2. destruct (f b0) as [x|] eqn:E.
        + destruct (Hsound _ _ _ _ H1 H2 E) as (its & -> & Hi). exists its. split; [reflexivity|]. congruence.
        + destruct (sm_prefix _ _ _ _ _ _ _ H1) as (its & ->). exists its. split; [reflexivity|]. discriminate.
    Qed.
    Lemma list_complete ts xs : loose_list item ts xs ->
      (forall th, ts = [COMMA] -> frag_next (begins C) COMMA [ready_of p th] = [] /\ tok_next COMMA [ready_of p th] = []) ->
      exists l c, Goes [([], map KP [sep_by_commas (p :: q); opt_comma])] ts (Match [BRep l; BRep c]) /\ all_some f l = Some xs.
    Proof.
      intros H Hc. eapply loose_list_impl with (R := fun x b => f b = Some x) in H; [|exact Hitem]. destruct H as (l & Hl & Hx).
      destruct (list_goes (begins C) (expr_at C) (path_at C) p q Hp ts l Hl) as [c Hg]; [intros _; apply Hc|].
      exists l, c. split; [exact Hg|]. now apply forall2_some.
    Qed.
    Lemma strict_sound ts b : sm [sep_by_commas (p :: q)] ts [] b ->
      exists l, b = [BRep l] /\ forall xs, all_some f l = Some xs -> strict_list item ts xs.
    Proof.
      intros H. apply (inv_strict C (p :: q) (fun its b => forall x, f b = Some x -> item its x)) in H.
      - destruct H as (l & -> & H). exists l. split; [reflexivity|]. intros xs Hx. eapply strict_map; [|exact H|exact Hx]. auto.
      - intros i rest b0 H1 H2. destruct (f b0) as [x|] eqn:E.
        + destruct (Hsound _ _ _ _ H1 H2 E) as (its & -> & Hi). exists its. split; [reflexivity|]. congruence.
        + destruct (sm_prefix _ _ _ _ _ _ _ H1) as (its & ->). exists its. split; [reflexivity|]. discriminate.
    Qed.
    Lemma strict_complete ts xs : strict_list item ts xs ->
      exists l, Goes [([], map KP [sep_by_commas (p :: q)])] ts (Match [BRep l]) /\ all_some f l = Some xs.
    Proof.
      intros H. eapply strict_list_impl with (R := fun x b => f b = Some x) in H; [|exact Hitem]. destruct H as (l & Hl & Hx).
      exists l. split; [now apply strict_goes|]. now apply forall2_some.
    Qed.
  End OneRule.
End Facts.
