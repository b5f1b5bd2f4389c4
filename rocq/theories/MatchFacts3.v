(** Following a match through repetitions. *)
From Verif Require Import Match MatchFacts MatchFacts2 SyntaxSpec.
Local Open Scope string_scope. Local Open Scope list_scope.

Section Follow.
  Variable begins_expr : tree -> bool.
  Variable expr_len path_len : list tree -> option nat.
  Notation begin_ok := (may_begin begins_expr).
  Notation parse := (parse_frag expr_len path_len).
  Notation Runs := (Runs begins_expr expr_len path_len).
  Notation Goes := (Goes begins_expr expr_len path_len).
  Notation frag_next := (frag_next begins_expr).

  Definition stops (stop rest : list tree) : Prop := rest = [] \/ exists t r, rest = t :: r /\ In t stop.

  (** what comes next is found in a few steps and is no group *)
  Definition closed (K : list kont) : Prop := forall cur, exists l, closure 8 (cur, K) = Some l /\ forall d g, dead begins_expr l (TkGr d g).
  (** [its] is matched by [p :: q], wherever it stands before the end or one of the tokens in [stop], and does not begin with one in [avoid] *)
  Definition item_ok (avoid stop : list tree) (p : pat) (q : list pat) (its : list tree) (b : list binding) : Prop :=
    (exists t its', its = t :: its' /\ forall a, In a avoid -> token_eqb a t = false) /\
    forall K rest r, closed K -> stops stop rest -> Goes [(rev b, K)] rest r -> Goes [([], KP p :: map KP q ++ K)] (its ++ rest) r.

  Lemma ready_no_end p th : simple p -> ends [ready_of p th] = [].
  Proof. now destruct p. Qed.
  Lemma dead_end b t : dead begins_expr [REnd b] t.
  Proof. repeat split. Qed.
  Lemma dead_tok t' th t : token_eqb t' t = false -> dead begins_expr [RTok t' th] t.
  Proof. intros H. repeat split. cbn. now rewrite H. Qed.
  Lemma dead_app a b t : dead begins_expr a t -> dead begins_expr b t -> dead begins_expr (a ++ b) t.
  Proof.
    unfold dead, Match.frag_next, tok_next, grp_next. intros (H1 & H2 & H3) (H4 & H5 & H6).
    rewrite !flat_map_app, H1, H2, H3, H4, H5, H6. auto.
  Qed.

  Section Lists.
    Variables (p : pat) (q : list pat).
    Hypothesis Hp : simple p.
    Notation item := (item_ok [COMMA] [COMMA] p q).
    Definition round (k : list kont) (before : list (list binding)) : thread :=
      ([], map KP (p :: q) ++ KR (p :: q) (Some COMMA) RStar before [] :: k).

    (** *** [$( .. ),*$(,)?] *)
    Notation tail := [KP opt_comma].
    Definition after_comma (before : list (list binding)) : list thread :=
      [([], [KR [pu ","] None ROpt [] [BRep before]]); round tail before].
    Lemma after_comma_closed before :
      closures (after_comma before) = Some ([REnd [BRep before; BRep [[]]]] ++
        [ready_of p ([], map KP q ++ KR (p :: q) (Some COMMA) RStar before [] :: tail)]).
    Proof. unfold after_comma, round. destruct p; try reflexivity. destruct Hp. Qed.
    Lemma after_item rest before b r :
      (rest = [] -> r = Match [BRep (before ++ [b]); BRep []]) ->
      (forall rest', rest = COMMA :: rest' -> Goes (after_comma (before ++ [b])) rest' r) ->
      stops [COMMA] rest ->
      Goes [(rev b, KR (p :: q) (Some COMMA) RStar before [] :: tail)] rest r.
    Proof.
      intros H1 H2 [->|(t & rest' & -> & [<-|[]])].
      - rewrite H1 by reflexivity. eexists. split; [reflexivity|]. apply runs_end. cbn. now rewrite rev_involutive.
      - eexists. split; [reflexivity|]. eapply runs_tok; [reflexivity|reflexivity|reflexivity|].
        specialize (H2 _ eq_refl). cbn [both app]. rewrite rev_involutive. exact H2.
    Qed.
    Lemma list_after_comma rest bs : comma_list item rest bs ->
      forall before, exists c, Goes (after_comma before) rest (Match [BRep (before ++ bs); BRep c]).
    Proof.
      induction 1 as [|ts b Hb|ts b rest bs Hb Hl IH]; intros before.
      - exists [[]]. eexists. split; [apply after_comma_closed|]. apply runs_end. unfold ends. rewrite flat_map_app.
        fold (ends [ready_of p ([], map KP q ++ KR (p :: q) (Some COMMA) RStar before [] :: tail)]). rewrite ready_no_end by exact Hp. cbn. now rewrite app_nil_r.
      - exists []. eexists. split; [apply after_comma_closed|]. destruct Hb as [(t & its & -> & Ht) Hb].
        apply runs_drop; [apply dead_end|]. apply goes_simple; [exact Hp|]. rewrite <- (app_nil_r (t :: its)). apply Hb; [intros ?; eexists; split; [reflexivity|repeat split]|now left|].
        apply after_item; [reflexivity|discriminate|now left].
      - destruct (IH (before ++ [b])) as [c Hc]. exists c. eexists. split; [apply after_comma_closed|]. destruct Hb as [(t & its & -> & Ht) Hb].
        apply runs_drop; [apply dead_end|]. apply goes_simple; [exact Hp|]. apply Hb; [intros ?; eexists; split; [reflexivity|repeat split]|right; eexists _, _; split; [reflexivity|now left]|].
        rewrite <- app_assoc in Hc.
        apply after_item; [discriminate| |right; eexists _, _; split; [reflexivity|now left]]. intros rest' [= <-]. exact Hc.
    Qed.
    Lemma list_goes ts bs : loose_list item ts bs ->
      (simple p -> ts = [COMMA] -> frag_next COMMA [ready_of p ([], map KP q ++ KR (p :: q) (Some COMMA) RStar [] [] :: tail)] = [] /\
        tok_next COMMA [ready_of p ([], map KP q ++ KR (p :: q) (Some COMMA) RStar [] [] :: tail)] = []) ->
      exists c, Goes [([], map KP [sep_by_commas (p :: q); opt_comma])] ts (Match [BRep bs; BRep c]).
    Proof.
      intros H Hcomma.
      assert (E : closures [([], map KP [sep_by_commas (p :: q); opt_comma])] =
        Some (([REnd [BRep []; BRep []]] ++ [RTok COMMA ([], [KR [pu ","] None ROpt [] [BRep []]])]) ++
              [ready_of p ([], map KP q ++ KR (p :: q) (Some COMMA) RStar [] [] :: tail)]))
        by (destruct p; try reflexivity; destruct Hp).
      assert (D : forall t, token_eqb COMMA t = false -> dead begins_expr
        ([REnd [BRep []; BRep []]] ++ [RTok COMMA ([], [KR [pu ","] None ROpt [] [BRep []]])]) t)
        by (intros t Ht; apply dead_app; [apply dead_end|now apply dead_tok]).
      destruct H as [H|[-> ->]].
      - destruct H as [|ts b Hb|ts b rest bs Hb Hl].
        + exists []. eexists. split; [exact E|]. apply runs_end. unfold ends. rewrite flat_map_app.
          fold (ends [ready_of p ([], map KP q ++ KR (p :: q) (Some COMMA) RStar [] [] :: tail)]). rewrite ready_no_end by exact Hp. reflexivity.
        + exists []. eexists. split; [exact E|]. destruct Hb as [(t & its & -> & Ht) Hb].
          apply runs_drop; [apply D, Ht; now left|]. apply goes_simple; [exact Hp|]. rewrite <- (app_nil_r (t :: its)). apply Hb; [intros ?; eexists; split; [reflexivity|repeat split]|now left|].
          apply after_item; [reflexivity|discriminate|now left].
        + destruct (list_after_comma _ _ Hl [b]) as [c Hc]. exists c. eexists. split; [exact E|]. destruct Hb as [(t & its & -> & Ht) Hb].
          apply runs_drop; [apply D, Ht; now left|]. apply goes_simple; [exact Hp|].
          apply Hb; [intros ?; eexists; split; [reflexivity|repeat split]|right; eexists _, _; split; [reflexivity|now left]|].
          apply after_item; [discriminate| |right; eexists _, _; split; [reflexivity|now left]]. intros rest' [= <-]. exact Hc.
      - destruct (Hcomma Hp eq_refl) as [H1 H2]. exists [[]]. eexists. split; [exact E|].
        assert (H3 : grp_next COMMA [ready_of p ([], map KP q ++ KR (p :: q) (Some COMMA) RStar [] [] :: tail)] = []) by now destruct p.
        apply runs_drop_after; [repeat split; assumption|]. eapply runs_tok; [reflexivity|reflexivity|reflexivity|].
        eexists. split; [reflexivity|]. now apply runs_end.
    Qed.

    (** *** [$( .. ),*] up to the end *)
    Lemma strict_after_item rest before b r :
      (rest = [] -> r = Match [BRep (before ++ [b])]) ->
      (forall rest', rest = COMMA :: rest' -> Goes [round [] (before ++ [b])] rest' r) ->
      stops [COMMA] rest ->
      Goes [(rev b, KR (p :: q) (Some COMMA) RStar before [] :: [])] rest r.
    Proof.
      intros H1 H2 [->|(t & rest' & -> & [<-|[]])].
      - rewrite H1 by reflexivity. eexists. split; [reflexivity|]. apply runs_end. cbn. now rewrite rev_involutive.
      - eexists. split; [reflexivity|]. eapply runs_tok; [reflexivity|reflexivity|reflexivity|].
        specialize (H2 _ eq_refl). cbn [both app]. rewrite rev_involutive. exact H2.
    Qed.
    Lemma strict_round ts bs : sep_list COMMA item ts bs -> forall before, Goes [round [] before] ts (Match [BRep (before ++ bs)]).
    Proof.
      induction 1 as [ts b Hb|ts b rest bs Hb Hl IH]; intros before; destruct Hb as [_ Hb].
      - rewrite <- (app_nil_r ts). apply Hb; [intros ?; eexists; split; [reflexivity|repeat split]|now left|]. apply strict_after_item; [reflexivity|discriminate|now left].
      - apply Hb; [intros ?; eexists; split; [reflexivity|repeat split]|right; eexists _, _; split; [reflexivity|now left]|]. specialize (IH (before ++ [b])). rewrite <- app_assoc in IH.
        apply strict_after_item; [discriminate| |right; eexists _, _; split; [reflexivity|now left]]. intros rest' [= <-]. exact IH.
    Qed.
    Lemma strict_goes ts bs : strict_list item ts bs -> Goes [([], map KP [sep_by_commas (p :: q)])] ts (Match [BRep bs]).
    Proof.
      intros H.
      assert (E : closures [([], map KP [sep_by_commas (p :: q)])] =
        Some ([REnd [BRep []]] ++ [ready_of p ([], map KP q ++ KR (p :: q) (Some COMMA) RStar [] [] :: [])]))
        by (destruct p; try reflexivity; destruct Hp).
      eexists. split; [exact E|]. destruct H as [H|[-> ->]].
      - assert (Hh : exists t its, ts = t :: its) by (destruct H as [? ? [(t & its & -> & _) _]|? ? ? ? [(t & its & -> & _) _] _]; cbn; eauto).
        destruct Hh as (t & its & ->). apply runs_drop; [apply dead_end|]. apply goes_simple; [exact Hp|].
        exact (strict_round _ _ H []).
      - apply runs_end. unfold ends. rewrite flat_map_app.
        fold (ends [ready_of p ([], map KP q ++ KR (p :: q) (Some COMMA) RStar [] [] :: [])]). rewrite ready_no_end by exact Hp. reflexivity.
    Qed.
  End Lists.

  (** *** [$( .. )*] without a separator, up to the end; items begin with a fragment or a group and end as they please *)
  Section Many.
    Variables (p : pat) (q : list pat).
    Hypothesis Hp : simple p.
    Definition item_then (its : list tree) (b : list binding) : Prop :=
      (exists t its', its = t :: its') /\
      forall K rest r, Goes [(rev b, K)] rest r -> Goes [([], KP p :: map KP q ++ K)] (its ++ rest) r.
    Lemma many_round ts bs : many item_then ts bs -> forall before b,
      Goes [(rev b, [KR (p :: q) None RStar before []])] ts (Match [BRep (before ++ b :: bs)]).
    Proof.
      induction 1 as [|ts b' rest bs Hb Hl IH]; intros before b.
      - assert (E : closures [(rev b, [KR (p :: q) None RStar before []])] =
          Some ([REnd [BRep (before ++ [b])]] ++ [ready_of p ([], map KP q ++ KR (p :: q) None RStar (before ++ [b]) [] :: [])]))
          by (destruct p; try destruct Hp; cbn; now rewrite rev_involutive).
        eexists. split; [exact E|]. apply runs_end. unfold ends. rewrite flat_map_app.
        fold (ends [ready_of p ([], map KP q ++ KR (p :: q) None RStar (before ++ [b]) [] :: [])]). rewrite ready_no_end by exact Hp. reflexivity.
      - assert (E : closures [(rev b, [KR (p :: q) None RStar before []])] =
          Some ([REnd [BRep (before ++ [b])]] ++ [ready_of p ([], map KP q ++ KR (p :: q) None RStar (before ++ [b]) [] :: [])]))
          by (destruct p; try destruct Hp; cbn; now rewrite rev_involutive).
        eexists. split; [exact E|]. destruct Hb as [(t & its & ->) Hb]. change ((t :: its) ++ rest) with (t :: its ++ rest) in *.
        apply runs_drop; [apply dead_end|]. apply goes_simple; [exact Hp|]. apply (Hb _ rest). specialize (IH (before ++ [b]) b'). rewrite <- app_assoc in IH. exact IH.
    Qed.
    Lemma many_goes ts bs : many item_then ts bs -> Goes [([], map KP [PR (p :: q) None RStar])] ts (Match [BRep bs]).
    Proof.
      intros H.
      assert (E : closures [([], map KP [PR (p :: q) None RStar])] =
        Some ([REnd [BRep []]] ++ [ready_of p ([], map KP q ++ KR (p :: q) None RStar [] [] :: [])]))
        by (destruct p; try reflexivity; destruct Hp).
      eexists. split; [exact E|]. destruct H as [|ts b rest bs Hb Hl].
      - apply runs_end. unfold ends. rewrite flat_map_app.
        fold (ends [ready_of p ([], map KP q ++ KR (p :: q) None RStar [] [] :: [])]). rewrite ready_no_end by exact Hp. reflexivity.
      - destruct Hb as [(t & its & ->) Hb]. change ((t :: its) ++ rest) with (t :: its ++ rest) in *. apply runs_drop; [apply dead_end|]. apply goes_simple; [exact Hp|].
        apply (Hb _ rest). exact (many_round _ _ Hl [] b).
    Qed.
  End Many.

  (** *** [$( .. )?] before a token that does not begin the same way *)
  Lemma opt_skip_tok p q t cur k ts r : simple p -> token_eqb t t = true ->
    dead begins_expr [ready_of p ([], map KP q ++ KR (p :: q) None ROpt [] cur :: KP (PT t) :: k)] t ->
    Goes [(BRep [] :: cur, k)] ts r -> Goes [(cur, KP (opt (p :: q)) :: KP (PT t) :: k)] (t :: ts) r.
  Proof.
    intros Hp Ht Hd H.
    assert (E : closures [(cur, KP (opt (p :: q)) :: KP (PT t) :: k)] =
      Some ([RTok t (BRep [] :: cur, k)] ++ [ready_of p ([], map KP q ++ KR (p :: q) None ROpt [] cur :: KP (PT t) :: k)]))
      by (destruct p; try reflexivity; destruct Hp).
    eexists. split; [exact E|]. apply runs_drop_after; [exact Hd|]. eapply runs_tok; [reflexivity| |reflexivity|exact H]. cbn. now rewrite Ht.
  Qed.
End Follow.
