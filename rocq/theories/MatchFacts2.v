(** Following a match, whatever the fuel. *)
From Verif Require Import Match MatchFacts.
Local Open Scope string_scope. Local Open Scope list_scope.

Section Follow.
  Variable begins_expr : tree -> bool.
  Variable expr_len path_len : list tree -> option nat.
  Notation begin_ok := (may_begin begins_expr).
  Notation parse := (parse_frag expr_len path_len).
  Notation run := (run begins_expr expr_len path_len).
  Notation matches := (matches begins_expr expr_len path_len).
  Notation frag_next := (frag_next begins_expr).

  Definition Runs (rs : list ready) (ts : list tree) (r : mres) : Prop := forall n, tokens ts < n -> run n rs ts = r.
  Definition Goes (ths : list thread) (ts : list tree) (r : mres) : Prop := exists rs, closures ths = Some rs /\ Runs rs ts r.

  Lemma parse_shrinks f ts v rest : parse f ts = FOk v rest -> exists t pre, ts = t :: pre ++ rest.
  Proof.
    assert (T : forall n, take n ts = FOk v rest -> exists t pre, ts = t :: pre ++ rest).
    { intros [[|k]|] H; try discriminate. unfold take in H. destruct (Nat.leb _ _) eqn:El; [|discriminate]. injection H as <- <-.
      destruct ts as [|t ts]; [discriminate El|]. exists t, (firstn k ts). cbn. now rewrite firstn_skipn. }
    destruct f; cbn [parse_frag]; [| |apply T|apply T|].
    - destruct ts as [|[] ts]; try discriminate. intros [= <- <-]. eexists _, []. reflexivity.
    - destruct ts as [|[] ts]; try discriminate; [intros [= <- <-]; eexists _, []; reflexivity|intros [= <- <-]; eexists _, []; reflexivity|].
      destruct ts as [|[] ts]; try discriminate. intros [= <- <-]. eexists _, [_]. reflexivity.
    - destruct ts as [|t ts]; try discriminate. intros [= <- <-]. eexists _, []. reflexivity.
  Qed.

  Lemma goes_fuel ths ts r n : Goes ths ts r -> tokens ts < n -> match closures ths with Some l => run n l ts | None => NoFuel end = r.
  Proof. intros (rs & -> & H) Hn. auto. Qed.
  Lemma runs_end rs b : ends rs = [b] -> Runs rs [] (Match b).
  Proof. intros H [|n] Hn; [cbn in Hn; lia|]. cbn. now rewrite H. Qed.
  Lemma runs_no_end rs : ends rs = [] -> Runs rs [] NoMatch.
  Proof. intros H [|n] Hn; [cbn in Hn; lia|]. cbn. now rewrite H. Qed.
  Lemma runs_dead rs t ts : frag_next t rs = [] -> tok_next t rs = [] -> grp_next t rs = [] -> Runs rs (t :: ts) NoMatch.
  Proof. intros H1 H2 H3 [|n] Hn; [lia|]. cbn [Match.run]. now rewrite H1, H2, H3. Qed.
  Lemma runs_tok rs t ts th ths r : frag_next t rs = [] -> tok_next t rs = th :: ths -> grp_next t rs = [] ->
    Goes (th :: ths) ts r -> Runs rs (t :: ts) r.
  Proof.
    intros H1 H2 H3 H4 [|n] Hn; [lia|]. cbn [Match.run]. rewrite H1, H2, H3. apply goes_fuel; [assumption|].
    rewrite tokens_cons in Hn. pose proof (tree_size_pos t). lia.
  Qed.
  Lemma runs_frag rs t ts f cur k v rest r : frag_next t rs = [(f, (cur, k))] -> tok_next t rs = [] -> grp_next t rs = [] ->
    parse f (t :: ts) = FOk v rest -> Goes [(v :: cur, k)] rest r -> Runs rs (t :: ts) r.
  Proof.
    intros H1 H2 H3 Hp H4 [|n] Hn; [lia|]. cbn [Match.run]. rewrite H1, H2, H3, Hp. apply goes_fuel; [assumption|].
    destruct (parse_shrinks _ _ _ _ Hp) as (t' & pre & E). rewrite E, tokens_cons, tokens_app in Hn. pose proof (tree_size_pos t'). lia.
  Qed.
  Lemma runs_grp rs d l ts q cur k b r : frag_next (TkGr d l) rs = [] -> tok_next (TkGr d l) rs = [] ->
    grp_next (TkGr d l) rs = [(q, l, (cur, k))] -> Goes [([], map KP q)] l (Match b) -> Goes [(rev b ++ cur, k)] ts r ->
    Runs rs (TkGr d l :: ts) r.
  Proof.
    intros H1 H2 H3 Hi H4 [|n] Hn; [lia|]. cbn [Match.run]. rewrite H1, H2, H3. rewrite tokens_cons, tokens_group in Hn.
    rewrite (goes_fuel _ _ _ n Hi) by lia. apply goes_fuel; [assumption|lia].
  Qed.
  Lemma runs_grp_not rs d l ts q cur k : frag_next (TkGr d l) rs = [] -> tok_next (TkGr d l) rs = [] ->
    grp_next (TkGr d l) rs = [(q, l, (cur, k))] -> Goes [([], map KP q)] l NoMatch ->
    Runs rs (TkGr d l :: ts) NoMatch.
  Proof.
    intros H1 H2 H3 Hi [|n] Hn; [lia|]. cbn [Match.run]. rewrite H1, H2, H3. rewrite tokens_cons, tokens_group in Hn.
    now rewrite (goes_fuel _ _ _ n Hi) by lia.
  Qed.
  Lemma matches_goes ps ts r : Goes [([], map KP ps)] ts r -> matches ps ts = r.
  Proof. intros H. unfold Match.matches. apply goes_fuel; [assumption|lia]. Qed.

  (** what cannot go on with the next token does not matter *)
  Definition dead (rs : list ready) (t : tree) : Prop := frag_next t rs = [] /\ tok_next t rs = [] /\ grp_next t rs = [].
  Lemma runs_drop a b t ts r : dead a t -> Runs b (t :: ts) r -> Runs (a ++ b) (t :: ts) r.
  Proof.
    intros (H1 & H2 & H3) H n Hn. specialize (H n Hn). destruct n as [|n]; [lia|]. cbn [Match.run] in *.
    unfold Match.frag_next, tok_next, grp_next in *. rewrite !flat_map_app, H1, H2, H3. exact H.
  Qed.
  Lemma runs_drop_after a b t ts r : dead b t -> Runs a (t :: ts) r -> Runs (a ++ b) (t :: ts) r.
  Proof.
    intros (H1 & H2 & H3) H n Hn. specialize (H n Hn). destruct n as [|n]; [lia|]. cbn [Match.run] in *.
    unfold Match.frag_next, tok_next, grp_next in *. rewrite !flat_map_app, H1, H2, H3, !app_nil_r. exact H.
  Qed.
  Lemma goes_runs th l ts r : closures [th] = Some l -> Runs l ts r -> Goes [th] ts r.
  Proof. intros H1 H2. exists l. auto. Qed.

  (** ** Single tokens *)
  Lemma goes_tok t cur k ts r : (forall d l, t <> TkGr d l) -> Goes [(cur, k)] ts r -> Goes [(cur, KP (PT t) :: k)] (t :: ts) r.
  Proof.
    intros Ht H. exists [RTok t (cur, k)]. split; [reflexivity|]. eapply runs_tok; [reflexivity| |reflexivity|exact H].
    cbn. now rewrite token_eqb_refl.
  Qed.
  Lemma goes_tok_not t t' cur k ts : token_eqb t t' = false -> Goes [(cur, KP (PT t) :: k)] (t' :: ts) NoMatch.
  Proof.
    intros Ht. exists [RTok t (cur, k)]. split; [reflexivity|]. apply runs_dead; [reflexivity| |reflexivity].
    cbn. now rewrite Ht.
  Qed.
  Lemma goes_tok_end t cur k : Goes [(cur, KP (PT t) :: k)] [] NoMatch.
  Proof. exists [RTok t (cur, k)]. split; [reflexivity|]. now apply runs_no_end. Qed.
  Lemma goes_frag f cur k t ts v rest r : begin_ok f t = true -> parse f (t :: ts) = FOk v rest -> Goes [(v :: cur, k)] rest r ->
    Goes [(cur, KP (PV f) :: k)] (t :: ts) r.
  Proof.
    intros Hb Hp H. exists [RFrag f (cur, k)]. split; [reflexivity|]. eapply runs_frag; [|reflexivity|reflexivity|exact Hp|exact H].
    unfold Match.frag_next. cbn [flat_map]. now rewrite Hb.
  Qed.
  Lemma goes_frag_not f cur k t ts : begin_ok f t = false -> Goes [(cur, KP (PV f) :: k)] (t :: ts) NoMatch.
  Proof.
    intros Hb. exists [RFrag f (cur, k)]. split; [reflexivity|]. apply runs_dead; [|reflexivity|reflexivity].
    unfold Match.frag_next. cbn [flat_map]. now rewrite Hb.
  Qed.
  Lemma goes_frag_end f cur k : Goes [(cur, KP (PV f) :: k)] [] NoMatch.
  Proof. exists [RFrag f (cur, k)]. split; [reflexivity|]. now apply runs_no_end. Qed.
  Lemma delim_refl d : delim_eqb d d = true. Proof. now destruct d. Qed.
  Lemma goes_grp d q cur k l ts b r : Goes [([], map KP q)] l (Match b) -> Goes [(rev b ++ cur, k)] ts r ->
    Goes [(cur, KP (PG d q) :: k)] (TkGr d l :: ts) r.
  Proof.
    intros Hi H. exists [RGrp d q (cur, k)]. split; [reflexivity|]. eapply runs_grp; [reflexivity|reflexivity| |exact Hi|exact H].
    cbn. now rewrite delim_refl.
  Qed.
  Lemma goes_grp_inside d q cur k l ts : Goes [([], map KP q)] l NoMatch -> Goes [(cur, KP (PG d q) :: k)] (TkGr d l :: ts) NoMatch.
  Proof.
    intros Hi. exists [RGrp d q (cur, k)]. split; [reflexivity|]. eapply runs_grp_not; [reflexivity|reflexivity| |exact Hi].
    cbn. now rewrite delim_refl.
  Qed.
  Lemma goes_grp_not d q cur k t ts : (forall l, t <> TkGr d l) -> Goes [(cur, KP (PG d q) :: k)] (t :: ts) NoMatch.
  Proof.
    intros Ht. exists [RGrp d q (cur, k)]. split; [reflexivity|]. apply runs_dead; [reflexivity|reflexivity|].
    cbn. destruct t; try reflexivity. destruct (delim_eqb d d0) eqn:E; [|reflexivity]. apply delim_eqb_eq in E. subst. now destruct (Ht l).
  Qed.
  Lemma goes_grp_end d q cur k : Goes [(cur, KP (PG d q) :: k)] [] NoMatch.
  Proof. exists [RGrp d q (cur, k)]. split; [reflexivity|]. now apply runs_no_end. Qed.
  Lemma goes_done cur : Goes [(cur, [])] [] (Match (rev cur)).
  Proof. exists [REnd (rev cur)]. split; [reflexivity|]. now apply runs_end. Qed.
  Lemma goes_left cur t ts : Goes [(cur, [])] (t :: ts) NoMatch.
  Proof. exists [REnd (rev cur)]. split; [reflexivity|]. now apply runs_dead. Qed.

  (** ** [$( .. )?]: [p] begins with a token or a group *)
  Definition simple (p : pat) : Prop := match p with PR _ _ _ => False | _ => True end.
  Definition ready_of (p : pat) (th : thread) : ready :=
    match p with PT t => RTok t th | PG d q => RGrp d q th | PV f => RFrag f th | PR _ _ _ => REnd [] end.
  Lemma closure_simple n p cur k : simple p -> closure (S n) (cur, KP p :: k) = Some [ready_of p (cur, k)].
  Proof. now destruct p. Qed.
  Lemma closures_one th l : closure DEPTH th = Some l -> closures [th] = Some l.
  Proof. intros H. cbn [closures]. rewrite H. cbn. now rewrite app_nil_r. Qed.
  Lemma goes_simple p cur k ts r : simple p -> (Goes [(cur, KP p :: k)] ts r <-> Runs [ready_of p (cur, k)] ts r).
  Proof.
    intros Hp. assert (E : closures [(cur, KP p :: k)] = Some [ready_of p (cur, k)]) by (apply closures_one; now apply closure_simple).
    split; [intros (rs & E' & H); rewrite E in E'; now injection E' as <-|]. intros H. eexists. eauto.
  Qed.

  (** ** [$($x:tt)*] at the end *)
  Definition tt_rounds (ts : list tree) : list (list binding) := map (fun t => [BToks [t]]) ts.
  Lemma goes_tts_round ts : forall op t before outer, op <> ROpt ->
    Goes [([BToks [t]], [KR [PV FTt] None op before outer])] ts (Match (rev outer ++ [BRep (before ++ [BToks [t]] :: tt_rounds ts)])).
  Proof.
    induction ts as [|t' ts IH]; intros op t before outer Hop.
    - eexists. split; [destruct op; [now destruct Hop|reflexivity|reflexivity]|]. apply runs_end. reflexivity.
    - eexists. split; [destruct op; [now destruct Hop|reflexivity|reflexivity]|].
      eapply runs_frag; [reflexivity|reflexivity|reflexivity|reflexivity|]. cbn [both app rev map].
      specialize (IH op t' (before ++ [[BToks [t]]]) outer Hop). rewrite <- app_assoc in IH. exact IH.
  Qed.
  Lemma goes_tts cur ts : Goes [(cur, [KP (PR [PV FTt] None RStar)])] ts (Match (rev cur ++ [BRep (tt_rounds ts)])).
  Proof.
    eexists. split; [reflexivity|]. destruct ts as [|t ts].
    - apply runs_end. reflexivity.
    - eapply runs_frag; [reflexivity|reflexivity|reflexivity|reflexivity|]. cbn [both app rev map].
      exact (goes_tts_round ts RStar t [] cur ltac:(discriminate)).
  Qed.
  Lemma goes_tts1 cur ts : ts <> [] -> Goes [(cur, [KP (PR [PV FTt] None RPlus)])] ts (Match (rev cur ++ [BRep (tt_rounds ts)])).
  Proof.
    intros H. eexists. split; [reflexivity|]. destruct ts as [|t ts]; [now destruct H|].
    eapply runs_frag; [reflexivity|reflexivity|reflexivity|reflexivity|]. cbn [both app rev map].
    exact (goes_tts_round ts RPlus t [] cur ltac:(discriminate)).
  Qed.
End Follow.
