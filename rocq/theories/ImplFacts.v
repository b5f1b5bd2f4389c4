(** [impl_opg_model!] reads exactly its grammar. *)
From Verif Require Import Match MatchFacts MatchFacts2 MatchFacts3 Syntax SyntaxSpec SyntaxFacts SyntaxFacts2 SyntaxFacts3 SyntaxFacts8 Gen Impl ImplSpec.
Local Open Scope string_scope. Local Open Scope list_scope.

Section Facts.
  Variable C : caller.
  Variable S : scope.
  Notation Goes := (Goes (begins C) (expr_at C) (path_at C)).
  Notation Runs := (Runs (begins C) (expr_at C) (path_at C)).
  Notation matches := (matches (begins C) (expr_at C) (path_at C)).
  Notation sm := (sm (begins C) (expr_at C) (path_at C)).
  Notation rounds := (rounds (begins C) (expr_at C) (path_at C)).

  (** ** The primitive schemas *)
  Lemma literal_value v f : literal C (lit_tokens v) f <-> literal_text C v = Some f.
  Proof.
    rewrite literal_spec. split.
    - intros (w & Hw & Hf). assert (w = v) as ->; [|exact Hf].
      destruct v as [s|n|[]|s|l]; cbn in Hw; inversion Hw as [l' E|[] E|l' E]; subst; try reflexivity; try discriminate.
    - intros H. exists v. split; [|exact H]. destruct v as [s|n|b|s|l]; cbn; constructor.
  Qed.
  Lemma opt_none {X} key (R : list tree -> X -> Prop) o : optional key R [] o -> o = None.
  Proof. destruct o as [x|]; [|reflexivity]. intros (v & H & _). discriminate. Qed.
  Lemma lit_split w s v rest : literal C w s -> w ++ rest = lit_tokens v -> literal_text C v = Some s /\ rest = [].
  Proof.
    intros Hw H. assert (E : w = lit_tokens v /\ rest = []).
    { destruct Hw, v as [x|x|[]|x|x]; cbn in H; try discriminate H; injection H as H; subst; try discriminate; auto; injection H; intros; subst; auto. }
    destruct E as [-> ->]. split; [|reflexivity]. now apply literal_value.
  Qed.
  Lemma app_nil_inv {A} (a b : list A) : a ++ b = [] -> a = [] /\ b = [].
  Proof. apply app_eq_nil. Qed.
  Ltac nothing := repeat match goal with
    | H : ?a ++ ?b = [] |- _ => apply app_nil_inv in H; destruct H as [? ?]; subst
    | H : optional _ _ [] _ |- _ => apply opt_none in H; subst
    | H : _ :: _ = [] |- _ => discriminate H
    | H : [] = _ |- _ => symmetry in H
    end.
  Lemma plain_model k m : const_model C k [] = Some m <-> exists w, k = u w /\ plain_kind w m.
  Proof.
    unfold const_model, Syntax.describe_type_macro. split.
    - intros H. apply option_map_inv in H. destruct H as (d & Hd & ->). apply parse_type_spec in Hd.
      inversion Hd as [|ds o v t Hds Hv Ht E|ds o fs f es e vs v H1 H2 H3 H4 E|ds o fs f es e H1 H2 H3 E|ds o fs f es e H1 H2 H3 E|ds o H1 E|ds o vs v H1 H2 E|ds o ps l H1 H2 E]; subst; nothing.
      + exists "string". split; [reflexivity|constructor].
      + exists "number". split; [reflexivity|constructor].
      + exists "integer". split; [reflexivity|constructor].
      + exists "boolean". split; [reflexivity|constructor].
    - intros (w & -> & Hw). destruct Hw.
      + pose proof (proj2 (parse_type_spec C _ _) (tf_string C [] None [] None [] None [] None eq_refl eq_refl eq_refl eq_refl)) as H. cbn [app] in H. unfold form in H. apply (f_equal (option_map describe_type)) in H. exact H.
      + pose proof (proj2 (parse_type_spec C _ _) (tf_number C [] None [] None [] None eq_refl eq_refl eq_refl)) as H. cbn [app] in H. unfold form in H. apply (f_equal (option_map describe_type)) in H. exact H.
      + pose proof (proj2 (parse_type_spec C _ _) (tf_integer C [] None [] None [] None eq_refl eq_refl eq_refl)) as H. cbn [app] in H. unfold form in H. apply (f_equal (option_map describe_type)) in H. exact H.
      + pose proof (proj2 (parse_type_spec C _ _) (tf_boolean C [] None eq_refl)) as H. cbn [app] in H. unfold form in H. apply (f_equal (option_map describe_type)) in H. exact H.
  Qed.
  Definition FMT (l : list tree) : list tree := tk_id "format" :: tk_pu ":" :: l.
  Lemma opt_other {X} key (R : list tree -> X -> Prop) ds o rest l : optional key R ds o -> ds ++ rest = FMT l -> u key <> u "format" -> ds = [] /\ o = None.
  Proof.
    intros H E Hk. destruct o as [x|]; [|now split]. destruct H as (v & -> & _). unfold FMT in E. cbn in E. injection E as E _. now destruct Hk.
  Qed.
  Lemma opt_format ds o rest v : optional "format" (literal C) ds o -> ds ++ rest = FMT (lit_tokens v) ->
    (exists s, o = Some s /\ literal_text C v = Some s /\ rest = []) \/ ds = [] /\ o = None.
  Proof.
    intros H E. destruct o as [x|]; [|now right]. left. destruct H as (w & -> & Hw). cbn in E. unfold FMT in E. injection E as E. exists x. split; [reflexivity|].
    now apply (lit_split w x v rest).
  Qed.
  Lemma format_model k v m : const_model C k [[BLit v]] = Some m <-> exists w f, k = u w /\ format_kind f w m /\ literal_text C v = Some f.
  Proof.
    unfold const_model, Syntax.describe_type_macro. split.
    - intros H. apply option_map_inv in H. destruct H as (d & Hd & ->). apply parse_type_spec in Hd. fold (FMT (lit_tokens v)) in Hd.
      inversion Hd as [|ds o n t Hds Hv Ht E|ds o fs f es e vs n H1 H2 H3 H4 E|ds o fs f es e H1 H2 H3 E|ds o fs f es e H1 H2 H3 E|ds o H1 E|ds o vs n H1 H2 E|ds o ps l H1 H2 E]; subst; try match goal with H : _ ++ _ = FMT _ |- _ => rename H into Eq end.
      + destruct (opt_other _ _ _ _ _ _ Hds Eq) as [-> ->]; [discriminate|]. discriminate.
      + destruct (opt_other _ _ _ _ _ _ H1 Eq) as [-> ->]; [discriminate|]. cbn [app] in Eq. destruct (opt_format _ _ _ _ H2 Eq) as [(s & -> & Hs & Hr)|[-> ->]].
        * nothing. exists "string", s. split; [reflexivity|]. split; [constructor|exact Hs].
        * cbn [app] in Eq. destruct (opt_other _ _ _ _ _ _ H3 Eq) as [-> ->]; [discriminate|]. cbn [app] in Eq. rewrite <- (app_nil_r vs) in Eq.
          destruct (opt_other _ _ _ _ _ _ H4 Eq) as [-> ->]; discriminate.
      + destruct (opt_other _ _ _ _ _ _ H1 Eq) as [-> ->]; [discriminate|]. cbn [app] in Eq. destruct (opt_format _ _ _ _ H2 Eq) as [(s & -> & Hs & Hr)|[-> ->]].
        * nothing. exists "number", s. split; [reflexivity|]. split; [constructor|exact Hs].
        * cbn [app] in Eq. rewrite <- (app_nil_r es) in Eq. destruct (opt_other _ _ _ _ _ _ H3 Eq) as [-> ->]; discriminate.
      + destruct (opt_other _ _ _ _ _ _ H1 Eq) as [-> ->]; [discriminate|]. cbn [app] in Eq. destruct (opt_format _ _ _ _ H2 Eq) as [(s & -> & Hs & Hr)|[-> ->]].
        * nothing. exists "integer", s. split; [reflexivity|]. split; [constructor|exact Hs].
        * cbn [app] in Eq. rewrite <- (app_nil_r es) in Eq. destruct (opt_other _ _ _ _ _ _ H3 Eq) as [-> ->]; discriminate.
      + pose proof (app_nil_r (FMT (lit_tokens v))) as E. destruct (opt_other _ _ _ _ _ _ H1 E) as [E' _]; discriminate.
      + destruct (opt_other _ _ _ _ _ _ H1 Eq) as [-> ->]; [discriminate|]. discriminate.
      + destruct (opt_other _ _ _ _ _ _ H1 Eq) as [-> ->]; [discriminate|]. discriminate.
    - intros (w & f & -> & Hw & Hf). apply literal_value in Hf. assert (Ho : optional "format" (literal C) (FMT (lit_tokens v)) (Some f)) by (now exists (lit_tokens v)).
      assert (Hr : FMT (lit_tokens v) ++ [] = FMT (lit_tokens v)) by apply app_nil_r. destruct Hw.
      + pose proof (tf_string C [] None _ _ [] None [] None eq_refl Ho eq_refl eq_refl) as H. cbn [app] in H. rewrite Hr in H. apply parse_type_spec in H. unfold form in H. apply (f_equal (option_map describe_type)) in H. exact H.
      + pose proof (tf_number C [] None _ _ [] None eq_refl Ho eq_refl) as H. cbn [app] in H. rewrite Hr in H. apply parse_type_spec in H. unfold form in H. apply (f_equal (option_map describe_type)) in H. exact H.
      + pose proof (tf_integer C [] None _ _ [] None eq_refl Ho eq_refl) as H. cbn [app] in H. rewrite Hr in H. apply parse_type_spec in H. unfold form in H. apply (f_equal (option_map describe_type)) in H. exact H.
  Qed.

  (** ** Sound *)
  Lemma sized_mark_spec s z : sized_mark s = Some z -> s = [] /\ z = false \/ s = [[BId (u "Sized")]] /\ z = true.
  Proof.
    destruct s as [|[|[n| | |] []] []]; try discriminate; cbn [sized_mark]; [intros [= <-]; now left|].
    destruct (str_eqb_spec n (u "Sized")) as [->|]; [|discriminate]. intros [= <-]. now right.
  Qed.
  Lemma needs_inv {X} b (x y : X) : needs b x = Some y -> b = true /\ y = x.
  Proof. destruct b; [|discriminate]. now intros [= <-]. Qed.
  Lemma item_trees k t : Impl.item k (tt_rounds t) = {| ii_kind := k; ii_for := t |}.
  Proof. unfold Impl.item. now rewrite trees_tt. Qed.
  Lemma rounds_names op i r l : rounds [PV FIdent] (Some COMMA) op i r l ->
    exists ns l', l = map (fun n => [BId n]) ns /\ i = l' ++ r /\ names_form l' ns /\
      l' = match ns with [] => [] | n :: ns' => TkId n :: flat_map (fun m => [COMMA; TkId m]) ns' end.
  Proof.
    enough (G : forall q s, rounds q s op i r l -> q = [PV FIdent] -> s = Some COMMA ->
      exists ns l', l = map (fun n => [BId n]) ns /\ i = l' ++ r /\ names_form l' ns /\
      l' = match ns with [] => [] | n :: ns' => TkId n :: flat_map (fun m => [COMMA; TkId m]) ns' end) by (intros H; now apply (G _ _ H)).
    intros q s H. induction H as [q s op i r b H|q t op i i' r b l Ho H H' IH|q op i i' r b l Ho H H' IH]; intros -> Es; subst; try discriminate.
    - apply inv_ident in H. destruct H as (n & i1 & b1 & -> & Hn & -> & H). apply inv_nil in H. destruct H as [-> ->].
      exists [n], [TkId n]. repeat split. now apply sl_last.
    - injection Es as ->. apply inv_ident in H. destruct H as (n & i1 & b1 & -> & Hn & -> & H). apply inv_nil in H. destruct H as [-> ->].
      destruct IH as (ns & l' & -> & -> & Hl & E); auto. exists (n :: ns), (TkId n :: COMMA :: l'). repeat split.
      + now apply (sl_more COMMA _ [TkId n] n).
      + destruct ns as [|m ns]; [inversion Hl|]. subst l'. reflexivity.
  Qed.
  Lemma names_some ns : all_some param_name (map (fun n => [BId n]) ns) = Some ns.
  Proof. induction ns as [|n ns IH]; [reflexivity|]. cbn [map all_some param_name]. now rewrite IH. Qed.
  Ltac tok H := apply inv_tok in H; let i := fresh "i" in destruct H as (i & -> & H).
  Ltac grp H Hg := apply inv_grp in H; let g := fresh "g" in let i := fresh "i" in destruct H as (g & i & ? & ? & -> & Hg & H & ->).
  Lemma impl_sound ts it : impl_opg_model C S ts = Some it -> impl_form C S ts it.
  Proof.
    intros H. apply rules_in in H. destruct H as (r & b & Hin & Hm & Hx). which_rule Hin; cbn [lhs rhs] in *.
    - tok Hm. grp Hm Hg. tok Hg. apply inv_opt in Hg. tok Hm. apply inv_tts1 in Hm. destruct Hm as [-> Ht].
      destruct Hg as [(b' & -> & Hg)|(i2 & b1 & b' & H1 & -> & Hg)]; apply inv_nil in Hg; destruct Hg as [-> ->]; cbn [app] in Hx; apply option_map_inv in Hx; destruct Hx as (z & Hz & ->); rewrite item_trees; apply sized_mark_spec in Hz as [[Hz ->]|[Hz ->]]; try discriminate.
      + now constructor.
      + tok H1. tok H1. apply inv_ident in H1. destruct H1 as (n & i4 & b1' & -> & Hn & -> & H1). apply inv_nil in H1. destruct H1 as [-> ->]. injection Hz as ->. now constructor.
    - tok Hm. apply inv_opt in Hm. destruct Hm as [(b' & -> & Hm)|(i2 & b1 & b' & H1 & -> & Hm)]; tok Hm; apply inv_tts1 in Hm; destruct Hm as [-> Ht];
        apply option_map_inv in Hx; destruct Hx as (z & Hz & ->); rewrite item_trees; apply sized_mark_spec in Hz as [[Hz ->]|[Hz ->]]; try discriminate.
      + now constructor.
      + grp H1 Hg. apply inv_nil in H1. destruct H1 as [-> ->]. tok Hg. apply inv_ident in Hg. destruct Hg as (n & i4 & b1' & -> & Hn & -> & H1). apply inv_nil in H1. destruct H1 as [-> ->].
        cbn [app] in Hz. injection Hz as ->. now constructor.
    - tok Hm. tok Hm. grp Hm Hg. apply inv_nil in Hm. destruct Hm as [-> ->].
      inversion Hg as [| | | |? ? ? ? ? ? ? Hno|q0 s op ps i3 i4 r l b' H1 H2]; subst; [now destruct Hno|]. apply inv_nil in H2. destruct H2 as [-> ->].
      destruct (rounds_names _ _ _ _ H1) as (ns & l' & -> & Ei & Hl & El). rewrite app_nil_r in Ei. subst g. cbn [app] in Hx. rewrite names_some in Hx. cbn in Hx. injection Hx as <-.
      rewrite <- El. now constructor.
    - tok Hm. tok Hm. apply inv_tts1 in Hm. destruct Hm as [-> Ht]. apply needs_inv in Hx. destruct Hx as [Hs ->]. rewrite item_trees. now constructor.
    - tok Hm. tok Hm. apply inv_tts1 in Hm. destruct Hm as [-> Ht]. apply needs_inv in Hx. destruct Hx as [Hs ->]. rewrite item_trees. apply andb_true_iff in Hs as [H1 H2]. now constructor.
    - apply inv_ident in Hm. destruct Hm as (k & i1 & b1 & -> & Hk & -> & Hm). apply inv_opt in Hm.
      destruct Hm as [(b' & -> & Hm)|(i2 & b2 & b' & H1 & -> & Hm)]; tok Hm; apply inv_tts1 in Hm; destruct Hm as [-> Ht].
      + destruct (const_model C k []) as [m|] eqn:Em; [|discriminate]. destruct (type_t S) as [n|] eqn:En; [|discriminate]. apply needs_inv in Hx. destruct Hx as [Hs ->]. rewrite item_trees.
        apply plain_model in Em. destruct Em as (w & -> & Hw). now apply if_named.
      + grp H1 Hg. apply inv_nil in H1. destruct H1 as [-> ->]. apply inv_lit in Hg. destruct Hg as (l & v & i3 & b3 & -> & Hl & -> & Hg). apply inv_nil in Hg. destruct Hg as [-> ->]. cbn [app] in Hx.
        destruct (const_model C k [[BLit v]]) as [m|] eqn:Em; [|discriminate]. destruct (type_t S) as [n|] eqn:En; [|discriminate]. apply needs_inv in Hx. destruct Hx as [Hs ->]. rewrite item_trees.
        apply format_model in Em. destruct Em as (w & f & -> & Hw & Hf). rewrite app_nil_r. apply (if_named_format C S w f); auto. apply literal_spec. eauto.
    - apply inv_ident in Hm. destruct Hm as (k & i1 & b1 & -> & Hk & -> & Hm). grp Hm Hg. tok Hg. apply inv_opt in Hg. tok Hm. apply inv_tts1 in Hm. destruct Hm as [-> Ht].
      destruct Hg as [(b' & -> & Hg)|(i3 & b2 & b' & H1 & -> & Hg)]; apply inv_nil in Hg; destruct Hg as [-> ->]; cbn [app] in Hx.
      + destruct (const_model C k []) as [m|] eqn:Em; [|discriminate]. apply needs_inv in Hx. destruct Hx as [Hs ->]. rewrite item_trees.
        apply plain_model in Em. destruct Em as (w & -> & Hw). now apply if_const.
      + tok H1. apply inv_lit in H1. destruct H1 as (l & v & i5 & b3 & -> & Hl & -> & Hg). apply inv_nil in Hg. destruct Hg as [-> ->].
        destruct (const_model C k [[BLit v]]) as [m|] eqn:Em; [|discriminate]. apply needs_inv in Hx. destruct Hx as [Hs ->]. rewrite item_trees.
        apply format_model in Em. destruct Em as (w & f & -> & Hw & Hf). rewrite app_nil_r. apply (if_const_format C S w f); auto. apply literal_spec. eauto.
  Qed.

  (** ** Complete *)
  Ltac hit := apply matches_goes; cbn [map].
  Lemma goes_type cur t : t <> [] -> Goes [(cur, [KP (pu ":"); KP tts1])] (COLON_TK :: t) (Match (rev cur ++ [BRep (tt_rounds t)])).
  Proof. intros H. apply goes_pu. unfold tts1. now apply goes_tts1. Qed.
  (** [$(( .. ))?:] *)
  Lemma goes_group_in q cur k l b rest r : Goes [([], map KP q)] l (Match b) -> Goes [(BRep [b] :: cur, KP (pu ":") :: k)] rest r ->
    Goes [(cur, KP (opt [PG Paren q]) :: KP (pu ":") :: k)] (TkGr Paren l :: rest) r.
  Proof.
    intros H1 H2. eapply opt_in; [exact I|reflexivity|repeat split|]. cbn [map app]. eapply goes_grp; [exact H1|]. rewrite app_nil_r.
    eapply opt_done; [reflexivity|]. now rewrite rev_involutive.
  Qed.
  Lemma goes_group_not q cur k l rest : Goes [([], map KP q)] l NoMatch -> Goes [(cur, KP (opt [PG Paren q]) :: KP (pu ":") :: k)] (TkGr Paren l :: rest) NoMatch.
  Proof.
    intros H1. eapply opt_in; [exact I|reflexivity|repeat split|]. cbn [map app]. now apply goes_grp_inside.
  Qed.
  Lemma goes_group_out q cur k rest r : Goes [(BRep [] :: cur, KP (pu ":") :: k)] (COLON_TK :: rest) r ->
    Goes [(cur, KP (opt [PG Paren q]) :: KP (pu ":") :: k)] (COLON_TK :: rest) r.
  Proof. intros H. eapply opt_out; [exact I|reflexivity|repeat split|exact H]. Qed.
  (** [$(, ..)?] at the end *)
  Lemma goes_tail_out q cur : Goes [(cur, [KP (opt (pu "," :: q))])] [] (Match (rev cur ++ [BRep []])).
  Proof. eapply opt_out_end; [exact I|reflexivity|reflexivity]. Qed.
  Lemma goes_tail_in q cur l b : (forall k r, Goes [(rev b, k)] [] r -> Goes [([], map KP q ++ k)] l r) ->
    Goes [(cur, [KP (opt (pu "," :: q))])] (COMMA :: l) (Match (rev cur ++ [BRep [b]])).
  Proof.
    intros H. eapply opt_in; [exact I|reflexivity|repeat split|]. cbn [map app]. apply goes_pu. apply H. eapply opt_done; [reflexivity|].
    rewrite rev_involutive. change (rev cur ++ [BRep [b]]) with (rev (BRep [b] :: cur)). apply goes_done.
  Qed.
  (** names *)
  Lemma goes_names l ns : names_form l ns -> forall before,
    Goes [([], [KP (PV FIdent); KR [PV FIdent] (Some COMMA) RPlus before []])] l (Match [BRep (before ++ map (fun n => [BId n]) ns)]).
  Proof.
    induction 1 as [ts n [-> Hn]|ts n rest ns [-> Hn] H IH]; intros before; cbn [app].
    - apply goes_ident; [exact Hn|]. eexists. split; [reflexivity|]. now apply runs_end.
    - apply goes_ident; [exact Hn|]. eexists. split; [reflexivity|]. eapply runs_tok; [reflexivity|reflexivity|reflexivity|]. cbn [rev app].
      specialize (IH (before ++ [[BId n]])). rewrite <- app_assoc in IH. exact IH.
  Qed.
  Lemma goes_tuple l ns : names_form l ns -> Goes [([], map KP [PR [PV FIdent] (Some COMMA) RPlus])] l (Match [BRep (map (fun n => [BId n]) ns)]).
  Proof.
    intros H. pose proof (goes_names _ _ H []) as G. destruct G as (rs & E & G). exists rs. split; [|exact G]. rewrite <- E. reflexivity.
  Qed.
  Lemma names_tokens l ns : names_form l ns -> l = match ns with [] => [] | n :: ns' => TkId n :: flat_map (fun m => [COMMA; TkId m]) ns' end.
  Proof.
    induction 1 as [ts n [-> Hn]|ts n rest ns [-> Hn] H IH]; [reflexivity|]. destruct ns as [|m ns]; [inversion H|]. now rewrite IH.
  Qed.

  Lemma skip_key {X} k (w : String.string) ps (f : list binding -> option X) rs ts : u w <> u k ->
    match_rules C (Build_rule (kw k :: ps) f :: rs) (tk_id w :: ts) = match_rules C rs (tk_id w :: ts).
  Proof.
    intros H. apply rule_skip. cbn [lhs]. apply key_not. unfold tk_id. cbn [token_eqb]. destruct (str_eqb_spec (u k) (u w)) as [E|_]; [now destruct H|reflexivity].
  Qed.
  (** words that begin none of the first five rules *)
  Definition plain (w : String.string) : Prop := In w ["string"; "number"; "integer"; "boolean"].
  Lemma plain_kind_plain w m : plain_kind w m -> plain w.
  Proof. intros []; cbv; auto 6. Qed.
  Lemma format_kind_plain f w m : format_kind f w m -> plain w.
  Proof. intros []; cbv; auto 6. Qed.
  Lemma plain_name w : plain w -> a_name (u w).
  Proof. intros [<-|[<-|[<-|[<-|[]]]]] H; discriminate. Qed.
  Lemma plain_rules w ts : plain w -> impl_opg_model C S (tk_id w :: ts) = match_rules C (skipn 5 (impl_rules C S)) (tk_id w :: ts).
  Proof.
    intros Hw. unfold impl_opg_model, impl_rules. do 5 (rewrite skip_key by (destruct Hw as [<-|[<-|[<-|[<-|[]]]]]; discriminate)). reflexivity.
  Qed.
  Lemma impl_complete ts it : impl_form C S ts it -> impl_opg_model C S ts = Some it.
  Proof.
    destruct 1 as [t Ht|t Ht|t Ht|t Ht|l ns Hl|t Ht Hs|t Ht Hs Hse|k m t Hk Ht Hs|k f l m t Hk Hl Ht Hs|k m n t Hk Ht Hs Hn|k f l m n t Hk Hl Ht Hs Hn].
    - unfold impl_opg_model, impl_rules. rewrite rule_skip by (hit; apply goes_kw, goes_grp_not; discriminate).
      erewrite rule_hit by (hit; apply goes_kw, goes_group_out, goes_type, Ht). cbn [rhs rev app]; try change (sized_mark [[BId (u "Sized")]]) with (Some true); cbn [sized_mark option_map]; now rewrite item_trees.
    - unfold impl_opg_model, impl_rules. rewrite rule_skip by (hit; apply goes_kw, goes_grp_inside, goes_tok_not; reflexivity).
      erewrite rule_hit by (hit; apply goes_kw; eapply goes_group_in; [apply goes_pu; apply (goes_ident C (u "Sized")); [discriminate|apply goes_done]|apply goes_type, Ht]). cbn [rhs rev app]; try change (sized_mark [[BId (u "Sized")]]) with (Some true); cbn [sized_mark option_map]; now rewrite item_trees.
    - unfold impl_opg_model, impl_rules. erewrite rule_hit by (hit; apply goes_kw; eapply goes_grp; [apply goes_kw, goes_tail_out|apply goes_type, Ht]).
      cbn [rhs rev app]; try change (sized_mark [[BId (u "Sized")]]) with (Some true); cbn [sized_mark option_map]; now rewrite item_trees.
    - unfold impl_opg_model, impl_rules. erewrite rule_hit.
      2:{ hit. apply goes_kw. eapply goes_grp; [|apply goes_type, Ht]. apply goes_kw. apply (goes_tail_in _ _ _ [BId (u "Sized")]). intros k r H. cbn [map app]. apply goes_pu. apply (goes_ident C (u "Sized")); [discriminate|exact H]. }
      cbn [rhs rev app]; try change (sized_mark [[BId (u "Sized")]]) with (Some true); cbn [sized_mark option_map]; now rewrite item_trees.
    - unfold impl_opg_model, impl_rules. do 2 rewrite skip_key by discriminate. erewrite rule_hit by (hit; apply goes_kw, goes_pu; eapply goes_grp; [apply goes_tuple, Hl|apply goes_done]).
      cbn [rhs rev app]. rewrite names_some. cbn [option_map]. now rewrite <- (names_tokens _ _ Hl).
    - unfold impl_opg_model, impl_rules. do 3 rewrite skip_key by discriminate. erewrite rule_hit by (hit; apply goes_kw, goes_type, Ht).
      cbn [rhs rev app needs]. rewrite Hs, item_trees. reflexivity.
    - unfold impl_opg_model, impl_rules. do 4 rewrite skip_key by discriminate. erewrite rule_hit by (hit; apply goes_kw, goes_type, Ht).
      cbn [rhs rev app needs]. rewrite Hs, Hse, item_trees. reflexivity.
    - pose proof (plain_kind_plain _ _ Hk) as Hw. rewrite plain_rules by exact Hw. pose proof (plain_name _ Hw) as Hn. cbn [skipn impl_rules].
      rewrite rule_skip by (hit; apply (goes_ident C (u k)); [exact Hn|]; apply goes_group_not; cbn [map]; apply goes_frag_not; reflexivity).
      erewrite rule_hit by (hit; apply (goes_ident C (u k)); [exact Hn|]; eapply goes_grp; [apply goes_kw, goes_tail_out|apply goes_type, Ht]).
      cbn [rhs rev app]. rewrite (proj2 (plain_model (u k) m)) by eauto. rewrite Hs, item_trees. reflexivity.
    - pose proof (format_kind_plain _ _ _ Hk) as Hw. rewrite plain_rules by exact Hw. pose proof (plain_name _ Hw) as Hn. cbn [skipn impl_rules].
      apply literal_spec in Hl. destruct Hl as (v & Hv & Hf).
      rewrite rule_skip by (hit; apply (goes_ident C (u k)); [exact Hn|]; apply goes_group_not; cbn [map]; apply goes_frag_not; reflexivity).
      erewrite rule_hit.
      2:{ hit. apply (goes_ident C (u k)); [exact Hn|]. eapply goes_grp; [|apply goes_type, Ht]. apply goes_kw. apply (goes_tail_in _ _ _ [BLit v]).
          intros K r H. cbn [map app]. rewrite <- (app_nil_r l). now apply (goes_literal C l v). }
      cbn [rhs rev app]. rewrite (proj2 (format_model (u k) v m)) by eauto. rewrite Hs, item_trees. reflexivity.
    - pose proof (plain_kind_plain _ _ Hk) as Hw. rewrite plain_rules by exact Hw. pose proof (plain_name _ Hw) as Ha. cbn [skipn impl_rules].
      erewrite rule_hit by (hit; apply (goes_ident C (u k)); [exact Ha|]; apply goes_group_out, goes_type, Ht).
      cbn [rhs rev app]. rewrite (proj2 (plain_model (u k) m)) by eauto. rewrite Hn, Hs, item_trees. reflexivity.
    - pose proof (format_kind_plain _ _ _ Hk) as Hw. rewrite plain_rules by exact Hw. pose proof (plain_name _ Hw) as Ha. cbn [skipn impl_rules].
      apply literal_spec in Hl. destruct Hl as (v & Hv & Hf). erewrite rule_hit.
      2:{ hit. apply (goes_ident C (u k)); [exact Ha|]. eapply (goes_group_in _ _ _ _ [BLit v]); [|apply goes_type, Ht]. cbn [map]. rewrite <- (app_nil_r l). apply (goes_literal C l v); [exact Hv|]. apply goes_done. }
      cbn [rhs rev app]. rewrite (proj2 (format_model (u k) v m)) by eauto. rewrite Hn, Hs, item_trees. reflexivity.
  Qed.
  Theorem impl_spec ts it : impl_opg_model C S ts = Some it <-> impl_form C S ts it.
  Proof. split; [apply impl_sound|apply impl_complete]. Qed.
End Facts.
