(** Facts about the rules: security requirements, urls, and lists of paths. *)
From Verif Require Import Match MatchFacts MatchFacts2 MatchFacts3 SyntaxSpec SyntaxFacts SyntaxFacts2 SyntaxFacts3.
Local Open Scope string_scope. Local Open Scope list_scope.

Section Facts.
  Variable C : caller.
  Hypothesis HC : rust_like C.
  Notation Goes := (Goes (begins C) (expr_at C) (path_at C)).
  Notation Runs := (Runs (begins C) (expr_at C) (path_at C)).
  Notation matches := (matches (begins C) (expr_at C) (path_at C)).
  Notation sm := (sm (begins C) (expr_at C) (path_at C)).
  Notation rounds := (rounds (begins C) (expr_at C) (path_at C)).
  Notation dead := (dead (begins C)).
  Notation item_ok := (item_ok (begins C) (expr_at C) (path_at C)).

  (** *** roles *)
  Lemma role_sound i rest b x : sm [PV FLit] i rest b -> stops [COMMA] rest -> role b = Some x ->
    exists its, i = its ++ rest /\ string_literal its x.
  Proof.
    intros H _ Hx. apply inv_lit in H. destruct H as (ts & v & i' & b' & -> & Hl & -> & H). apply inv_nil in H. destruct H as [-> ->].
    exists ts. split; [reflexivity|]. exact (str_lit_form _ _ _ Hl Hx).
  Qed.
  Lemma role_item its x : string_literal its x -> exists b, item_ok [COMMA] [COMMA] (PV FLit) [] its b /\ role b = Some x.
  Proof.
    intros ->. exists [BLit (VStr x)]. split; [|reflexivity]. split.
    - eexists _, _. split; [reflexivity|]. intros a [<-|[]]. reflexivity.
    - intros K rest r _ _ H. cbn [app map]. apply goes_lit. exact H.
  Qed.
  Notation roles_pat := (PG Bracket [sep_by_commas [PV FLit]]).
  Notation sec_pat := [PV FTt; opt [roles_pat]].

  (** one requirement: a token and perhaps roles, which are followed or have been read *)
  Inductive sec_item (inside : list tree -> list binding -> Prop) : list tree -> list binding -> Prop :=
  | si_plain t : sec_item inside [t] [BToks [t]; BRep []]
  | si_roles t l bs : inside l bs -> sec_item inside [t; TkGr Bracket l] [BToks [t]; BRep [bs]].
  Definition roles_read (l : list tree) (bs : list binding) : Prop := sm [sep_by_commas [PV FLit]] l [] bs.
  Definition roles_go (l : list tree) (bs : list binding) : Prop := Goes [([], map KP [sep_by_commas [PV FLit]])] l (Match bs).
  Lemma role_list_sound r bs rs : sm [sep_by_commas [PV FLit]] r [] bs -> security_roles [bs] = Some rs -> strict_list string_literal r rs.
  Proof.
    intros H Hr. destruct (strict_sound C _ (PV FLit) [] role string_literal role_sound _ _ H) as (l & -> & Hl). now apply Hl.
  Qed.
  Lemma security_of_sound its b x : sec_item roles_read its b -> security_of C b = Some x -> security_entry C its x.
  Proof.
    intros H Hx. assert (Hr : exists t r rs f, its = t :: r /\ security_name C [t] = Some f /\ role_list r rs /\ x = f rs).
    { destruct H as [t|t l bs Hs]; unfold security_of in Hx.
      - destruct (security_name C [t]) as [f|] eqn:Ef; [|discriminate]. injection Hx as <-. exists t, [], [], f. split; [reflexivity|]. split; [exact Ef|]. split; [now left|reflexivity].
      - destruct (security_name C [t]) as [f|] eqn:Ef; [|discriminate]. destruct (security_roles [bs]) as [rs|] eqn:Er; [|discriminate].
        injection Hx as <-. exists t, [TkGr Bracket l], rs, f. split; [reflexivity|]. split; [exact Ef|]. split; [|reflexivity]. right. exists l. split; [reflexivity|]. eapply role_list_sound; eauto. }
    destruct Hr as (t & r & rs & f & -> & Hf & Hr & ->). apply security_name_spec in Hf.
    destruct Hf as [(n & -> & ->)|(n & s & -> & Hn & Hs & ->)]; now constructor.
  Qed.
  Lemma security_of_complete its x : security_entry C its x -> exists b, sec_item roles_go its b /\ security_of C b = Some x.
  Proof.
    intros H. assert (Hr : exists t r rs f, its = t :: r /\ security_name C [t] = Some f /\ role_list r rs /\ x = f rs).
    { destruct H as [n r rs Hr|n s r rs Hn Hs Hr].
      - exists (TkLit (TlStr n)), r, rs, (SiLit n). split; [reflexivity|]. split; [|auto]. apply security_name_spec. left. eauto.
      - exists (TkId n), r, rs, (SiIdent n s). split; [reflexivity|]. split; [|auto]. apply security_name_spec. right. eauto 6. }
    destruct Hr as (t & r & rs & f & -> & Hf & [[-> ->]|(l & -> & Hl)] & ->).
    - exists [BToks [t]; BRep []]. split; [constructor|]. cbn [security_of security_roles]. now rewrite Hf.
    - destruct (strict_complete C _ (PV FLit) [] role string_literal I role_item l rs Hl) as (bs & Hg & Hb).
      exists [BToks [t]; BRep [[BRep bs]]]. split; [now constructor|]. cbn [security_of security_roles]. now rewrite Hf, Hb.
  Qed.

  Notation sec_k before := (KR sec_pat (Some AND) RPlus before [] :: [KP (pu ","); KP tts]).
  (** after a requirement *)
  Lemma sec_after before b rest r :
    (forall rest', rest = COMMA :: rest' -> r = Match [BRep (before ++ [b]); BRep (tt_rounds rest')]) ->
    (forall rest', rest = AND :: rest' -> Goes [([], map KP sec_pat ++ sec_k (before ++ [b]))] rest' r) ->
    (exists rest', rest = COMMA :: rest' \/ rest = AND :: rest') ->
    Goes [(rev b, sec_k before)] rest r.
  Proof.
    intros H1 H2 (rest' & [->| ->]).
    - rewrite (H1 _ eq_refl). eexists. split; [reflexivity|]. eapply runs_tok; [reflexivity|reflexivity|reflexivity|].
      cbn [both app]. rewrite rev_involutive. apply (goes_other C [BRep (before ++ [b])]).
    - eexists. split; [reflexivity|]. eapply runs_tok; [reflexivity|reflexivity|reflexivity|].
      specialize (H2 _ eq_refl). cbn [both app]. rewrite rev_involutive. exact H2.
  Qed.
  Lemma sec_step its b before rest r : sec_item roles_go its b -> (exists rest', rest = COMMA :: rest' \/ rest = AND :: rest') ->
    Goes [(rev b, sec_k before)] rest r -> Goes [([], map KP sec_pat ++ sec_k before)] (its ++ rest) r.
  Proof.
    intros Hi Hr H. destruct Hi as [t|t l bs Hg]; cbn [app map].
    - apply goes_tt. destruct Hr as (rest' & [->| ->]); (eapply opt_out; [exact I|reflexivity|repeat split|exact H]).
    - apply goes_tt. eapply opt_in; [exact I|reflexivity|repeat split|]. cbn [map app]. eapply goes_grp; [exact Hg|].
      rewrite app_nil_r. eapply opt_done; [reflexivity|]. rewrite rev_involutive. exact H.
  Qed.
  Lemma sec_rounds its bs : sep_list AND (sec_item roles_go) its bs -> forall before rest,
    Goes [([], map KP sec_pat ++ sec_k before)] (its ++ COMMA :: rest) (Match [BRep (before ++ bs); BRep (tt_rounds rest)]).
  Proof.
    induction 1 as [its b Hi|its b rest' bs Hi Hl IH]; intros before rest.
    - eapply sec_step; [exact Hi|eauto|]. apply sec_after; [now intros ? [= <-]|discriminate|eauto].
    - rewrite <- app_assoc. cbn [app]. eapply sec_step; [exact Hi|eauto|]. apply sec_after; [discriminate| |eauto].
      intros r [= <-]. specialize (IH (before ++ [b]) rest). rewrite <- app_assoc in IH. exact IH.
  Qed.
  Lemma sec_goes its bs rest : sep_list AND (sec_item roles_go) its bs ->
    Goes [([], map KP [PR sec_pat (Some AND) RPlus; pu ","; tts])] (its ++ COMMA :: rest) (Match [BRep bs; BRep (tt_rounds rest)]).
  Proof.
    intros H. destruct (sec_rounds _ _ H [] rest) as (rs & E & Hr). exists rs. split; [|exact Hr]. rewrite <- E. reflexivity.
  Qed.
  Lemma sec_one i rest b : sm sec_pat i rest b -> exists its, i = its ++ rest /\ sec_item roles_read its b.
  Proof.
    intros H. apply inv_tt in H. destruct H as (t & i' & b' & -> & -> & H). apply inv_opt in H.
    destruct H as [(b2 & -> & H)|(i2 & b1 & b2 & H1 & -> & H)]; apply inv_nil in H; destruct H as [-> ->].
    - exists [t]. split; [reflexivity|constructor].
    - apply inv_grp in H1. destruct H1 as (l & i3 & b3 & b4 & -> & H1 & H2 & ->). apply inv_nil in H2. destruct H2 as [-> ->].
      rewrite app_nil_r. exists [t; TkGr Bracket l]. split; [reflexivity|]. now constructor.
  Qed.
  Lemma sec_rounds_read op i r l : rounds sec_pat (Some AND) op i r l -> exists ts, i = ts ++ r /\ sep_list AND (sec_item roles_read) ts l.
  Proof.
    intros H. remember (Some AND) as s eqn:Es. remember sec_pat as q eqn:Eq.
    induction H as [q' s op i r b H|q' t op i i' r b l Ho H H' IH|q' op i i' r b l Ho H H' IH]; [| |discriminate]; subst q'.
    - destruct (sec_one _ _ _ H) as (its & -> & Hi). exists its. split; [reflexivity|now apply sl_last].
    - injection Es as ->. destruct (IH eq_refl eq_refl) as (ts & -> & Hl).
      destruct (sec_one _ _ _ H) as (its & -> & Hi). exists (its ++ AND :: ts). split; [now rewrite <- app_assoc|]. now apply sl_more.
  Qed.
  Lemma security_spec ts xs : munch_all C (security_rules C) ts = Some xs <-> comma_list (sep_list AND (security_entry C)) ts xs.
  Proof.
    apply munch_spec.
    - intros ts0 H. pose proof H as H0. apply rules_in in H. destruct H as (r & b & Hin & Hs & Hx). which_rule Hin; cbn [lhs rhs] in *.
      + break_match Hx. now apply more_no_stop in Hx.
      + assert (E : exists k, ts0 = repeat COMMA k).
        { inversion Hs as [| | | |q0 s op ps i0 r b' H1 H2|q' s op ps' i0 i' r' l b' H1 H2]; subst.
          - apply inv_nil in H2. destruct H2 as [-> ->]. now exists 0.
          - apply inv_nil in H2. destruct H2 as [-> ->]. remember [pu ","] as q eqn:Eq. remember (@None tree) as s eqn:Es. remember (@nil tree) as e eqn:Ee.
            clear Hs Hx H0. induction H1 as [q' s op i r b H|q' t op i i' r b l Ho H H' IH|q' op i i' r b l Ho H H' IH]; [|discriminate|]; subst q'.
            + apply inv_tok in H. destruct H as (i' & -> & H). apply inv_nil in H. destruct H as [-> ->]. subst. now exists 1.
            + apply inv_tok in H. destruct H as (i2 & -> & H). apply inv_nil in H. destruct H as [-> ->]. destruct (IH eq_refl eq_refl Ee) as [k ->]. now exists (S k). }
        destruct E as [[|[|k]] ->]; [now left|now right|]. exfalso. change (match_rules C (security_rules C) ([COMMA] ++ COMMA :: repeat COMMA k) = Some Stop) in H0. unfold security_rules in H0. change (tk_pu "&&") with AND in H0.
        rewrite (rule_hit C (Build_rule _ _) _ _ _ (matches_goes _ _ _ _ _ _ (sec_goes [COMMA] [[BToks [COMMA]; BRep []]] (repeat COMMA k) (sl_last _ _ _ _ (si_plain _ COMMA))))) in H0.
        discriminate.
    - intros ts0 x rest H. apply rules_in in H. destruct H as (r & b & Hin & Hs & Hx). which_rule Hin; cbn [lhs rhs] in *; [|discriminate].
      inversion Hs as [| | | |q0 s op ps i0 r b' H1 H2|q' s op ps' i0 i' r' l b' H1 H2]; subst; [congruence|].
      destruct (sec_rounds_read _ _ _ _ H1) as (its & -> & Hl). apply inv_comma_other in H2. destruct H2 as (o & -> & ->).
      other. rewrite trees_tt. exists its. split; [reflexivity|]. eapply sep_map; [|exact Hl|exact Hx]. intros t b x0. apply security_of_sound.
    - reflexivity.
    - reflexivity.
    - intros its x rest Hi. unfold security_rules.
      eapply sep_list_impl with (R := fun x b => security_of C b = Some x) in Hi; [|exact security_of_complete]. destruct Hi as (bs & Hl & Hx).
      rewrite (rule_hit C (Build_rule _ _) _ _ _ (matches_goes _ _ _ _ _ _ (sec_goes _ _ rest Hl))). cbn [rhs].
      rewrite (forall2_some _ _ _ Hx). apply more_some.
  Qed.
End Facts.
