(** Facts about the matcher: what a match gives, and how to follow one. *)
From Coq Require Import Wf_nat.
From Verif Require Import Match.
Local Open Scope string_scope. Local Open Scope list_scope.

Section Facts.
  Variable begins_expr : tree -> bool.
  Variable expr_len path_len : list tree -> option nat.
  Notation begin_ok := (may_begin begins_expr).
  Notation parse := (parse_frag expr_len path_len).
  Notation run := (run begins_expr expr_len path_len).
  Notation matches := (matches begins_expr expr_len path_len).
  Notation frag_next := (frag_next begins_expr).

  (** ** What a match gives *)

  (** the patterns match the beginning of the input, leaving the rest *)
  Inductive sm : list pat -> list tree -> list tree -> list binding -> Prop :=
  | sm_nil i : sm [] i i []
  | sm_tok t ps i r b : sm ps i r b -> sm (PT t :: ps) (t :: i) r b
  | sm_grp d q l b1 ps i r b : sm q l [] b1 -> sm ps i r b -> sm (PG d q :: ps) (TkGr d l :: i) r (b1 ++ b)
  | sm_frag f ps t i i' r v b : begin_ok f t = true -> parse f (t :: i) = FOk v i' -> sm ps i' r b ->
      sm (PV f :: ps) (t :: i) r (v :: b)
  | sm_skip q s op ps i r b : op <> RPlus -> sm ps i r b -> sm (PR q s op :: ps) i r (BRep [] :: b)
  | sm_rep q s op ps i i' r l b : rounds q s op i i' l -> sm ps i' r b -> sm (PR q s op :: ps) i r (BRep l :: b)
  with rounds : list pat -> option tree -> rep -> list tree -> list tree -> list (list binding) -> Prop :=
  | ro_one q s op i r b : sm q i r b -> rounds q s op i r [b]
  | ro_sep q t op i i' r b l : op <> ROpt -> sm q i (t :: i') b -> rounds q (Some t) op i' r l -> rounds q (Some t) op i r (b :: l)
  | ro_more q op i i' r b l : op <> ROpt -> sm q i i' b -> rounds q None op i' r l -> rounds q None op i r (b :: l).

  Inductive km : nat -> list binding -> list kont -> list tree -> list binding -> Prop :=
  | km_end cur : km 0 cur [] [] (rev cur)
  | km_tok n t cur k i b : km n cur k i b -> km (S n) cur (KP (PT t) :: k) (t :: i) b
  | km_grp n d q l b1 cur k i b : sm q l [] b1 -> km n (rev b1 ++ cur) k i b -> km (S n) cur (KP (PG d q) :: k) (TkGr d l :: i) b
  | km_frag n f cur k t i i' v b : begin_ok f t = true -> parse f (t :: i) = FOk v i' -> km n (v :: cur) k i' b ->
      km (S n) cur (KP (PV f) :: k) (t :: i) b
  | km_skip n q s op cur k i b : op <> RPlus -> km n (BRep [] :: cur) k i b -> km (S n) cur (KP (PR q s op) :: k) i b
  | km_in n q s op cur k i b : km n [] (map KP q ++ KR q s op [] cur :: k) i b -> km (S n) cur (KP (PR q s op) :: k) i b
  | km_out n q s op before outer cur k i b : km n (BRep (before ++ [rev cur]) :: outer) k i b ->
      km (S n) cur (KR q s op before outer :: k) i b
  | km_sep n q t op before outer cur k i b : op <> ROpt ->
      km n [] (map KP q ++ KR q (Some t) op (before ++ [rev cur]) outer :: k) i b ->
      km (S n) cur (KR q (Some t) op before outer :: k) (t :: i) b
  | km_more n q op before outer cur k i b : op <> ROpt ->
      km n [] (map KP q ++ KR q None op (before ++ [rev cur]) outer :: k) i b ->
      km (S n) cur (KR q None op before outer :: k) i b.

  (** the rounds after the first *)
  Definition later (q : list pat) (s : option tree) (op : rep) (i r : list tree) (l : list (list binding)) : Prop :=
    l = [] /\ r = i \/
    op <> ROpt /\ exists i', (match s with Some t => i = t :: i' | None => i = i' end) /\ rounds q s op i' r l.
  Lemma rounds_later q s op i i' r b l : sm q i i' b -> later q s op i' r l -> rounds q s op i r (b :: l).
  Proof.
    intros H [[-> ->]|(Ho & i2 & Hs & Hr)]; [now constructor|].
    destruct s as [t|]; subst i'; [eapply ro_sep|eapply ro_more]; eauto.
  Qed.

  Lemma km_split n :
    (forall ps cur k i b, km n cur (map KP ps ++ k) i b ->
       exists m r bs, m <= n /\ sm ps i r bs /\ km m (rev bs ++ cur) k r b) /\
    (forall q s op before outer cur k i b, km n cur (KR q s op before outer :: k) i b ->
       exists m r l, m < n /\ later q s op i r l /\ km m (BRep (before ++ rev cur :: l) :: outer) k r b).
  Proof.
    induction n as [n IH] using lt_wf_ind.
    assert (IHr : forall m, m < n -> forall q s op before outer cur k i b, km m cur (KR q s op before outer :: k) i b ->
       exists m' r l, m' < m /\ later q s op i r l /\ km m' (BRep (before ++ rev cur :: l) :: outer) k r b)
      by (intros m Hm; exact (proj2 (IH m Hm))).
    assert (IHp : forall m, m < n -> forall ps cur k i b, km m cur (map KP ps ++ k) i b ->
       exists m' r bs, m' <= m /\ sm ps i r bs /\ km m' (rev bs ++ cur) k r b)
      by (intros m Hm; exact (proj1 (IH m Hm))).
    clear IH. split.
    - intros [|p ps] cur k i b H.
      { exists n, i, []. repeat split; [lia|constructor|exact H]. }
      cbn [map app] in H.
      assert (K : forall m cur' i' bs1 d i0, m < n -> km m (rev bs1 ++ cur') (map KP ps ++ k) i' d ->
        (forall r bs, sm ps i' r bs -> sm (p :: ps) i0 r (bs1 ++ bs)) ->
        exists m' r bs, m' <= n /\ sm (p :: ps) i0 r bs /\ km m' (rev bs ++ cur') k r d).
      { intros m cur' i' bs1 d i0 Hm Hk Hs. destruct (IHp m Hm _ _ _ _ _ Hk) as (m' & r & bs & Hle & Hsm & Hk').
        exists m', r, (bs1 ++ bs). repeat split; [lia|auto|]. now rewrite rev_app_distr, <- app_assoc. }
      inversion H; subst.
      + eapply (K n0 cur _ []); [lia|eassumption|]. intros. now constructor.
      + eapply (K n0 cur _ b1); [lia|eassumption|]. intros. now constructor.
      + eapply (K n0 cur _ [v]); [lia|eassumption|]. intros. econstructor; eauto.
      + eapply (K n0 cur _ [BRep []]); [lia|eassumption|]. intros. now constructor.
      + match goal with Hin : km n0 [] _ _ _ |- _ => rename Hin into Hkm end; destruct (IHp n0 ltac:(lia) _ _ _ _ _ Hkm) as (m' & r & bs & Hle & Hsm & Hk). rewrite app_nil_r in Hk.
        destruct (IHr m' ltac:(lia) _ _ _ _ _ _ _ _ _ Hk) as (m2 & r2 & l & Hlt & Hl & Hk2). cbn [app] in Hk2. rewrite rev_involutive in Hk2.
        eapply (K m2 cur _ [BRep (bs :: l)]); [lia|exact Hk2|]. intros. cbn [app]. eapply sm_rep; [|eassumption]. eapply rounds_later; eauto.
    - intros q s op before outer cur k i b H. inversion H; subst.
      + exists n0, i, []. repeat split; [lia|now left|eassumption].
      + match goal with Hin : km n0 [] _ _ _ |- _ => rename Hin into Hkm end; destruct (IHp n0 ltac:(lia) _ _ _ _ _ Hkm) as (m' & r & bs & Hle & Hsm & Hk). rewrite app_nil_r in Hk.
        destruct (IHr m' ltac:(lia) _ _ _ _ _ _ _ _ _ Hk) as (m2 & r2 & l & Hlt & Hl & Hk2). rewrite rev_involutive, <- app_assoc in Hk2.
        exists m2, r2, (bs :: l). repeat split; [lia| |exact Hk2]. right. split; [assumption|]. eexists. split; [reflexivity|]. eapply rounds_later; eauto.
      + match goal with Hin : km n0 [] _ _ _ |- _ => rename Hin into Hkm end; destruct (IHp n0 ltac:(lia) _ _ _ _ _ Hkm) as (m' & r & bs & Hle & Hsm & Hk). rewrite app_nil_r in Hk.
        destruct (IHr m' ltac:(lia) _ _ _ _ _ _ _ _ _ Hk) as (m2 & r2 & l & Hlt & Hl & Hk2). rewrite rev_involutive, <- app_assoc in Hk2.
        exists m2, r2, (bs :: l). repeat split; [lia| |exact Hk2]. right. split; [assumption|]. eexists. split; [reflexivity|]. eapply rounds_later; eauto.
  Qed.

  Definition tm (th : thread) (i : list tree) (b : list binding) : Prop := exists n, km n (fst th) (snd th) i b.
  Definition rm (r : ready) (i : list tree) (b : list binding) : Prop :=
    match r with
    | REnd b' => i = [] /\ b = b'
    | RTok t th => exists i', i = t :: i' /\ tm th i' b
    | RGrp d q (cur, k) => exists l i' b1, i = TkGr d l :: i' /\ sm q l [] b1 /\ tm (rev b1 ++ cur, k) i' b
    | RFrag f (cur, k) => exists t i0 i' v, i = t :: i0 /\ begin_ok f t = true /\ parse f i = FOk v i' /\ tm (v :: cur, k) i' b
    end.
  Lemma in_both {A} (x y : option (list A)) l r : both x y = Some l -> In r l ->
    (exists a, x = Some a /\ In r a) \/ (exists a, y = Some a /\ In r a).
  Proof.
    destruct x as [a|], y as [a'|]; try discriminate. intros [= <-] H. apply in_app_or in H. destruct H; [left|right]; eauto.
  Qed.
  Lemma closure_sound n : forall th l r i b, closure n th = Some l -> In r l -> rm r i b -> tm th i b.
  Proof.
    induction n as [|n IH]; intros [cur k] l r i b H Hin Hr; [discriminate|]. cbn [closure] in H.
    destruct k as [|[p|q s op before outer] k].
    - injection H as <-. destruct Hin as [<-|[]]. destruct Hr as [-> ->]. exists 0. constructor.
    - destruct p as [t|d q|f|q s op].
      + injection H as <-. destruct Hin as [<-|[]]. destruct Hr as (i' & -> & m & Hk). exists (S m). now constructor.
      + injection H as <-. destruct Hin as [<-|[]]. destruct Hr as (l' & i' & b1 & -> & Hs & m & Hk). exists (S m). cbn [fst snd] in *. eapply km_grp; eassumption.
      + injection H as <-. destruct Hin as [<-|[]]. destruct Hr as (t & i0 & i' & v & -> & Hb & Hp & m & Hk). exists (S m). cbn [fst snd] in *. eapply km_frag; eassumption.
      + destruct (in_both _ _ _ _ H Hin) as [(a & Ha & Hi)|(a & Ha & Hi)].
        * destruct op; [| |injection Ha as <-; destruct Hi];
            (destruct (IH _ _ _ _ _ Ha Hi Hr) as [m Hk]; exists (S m); cbn [fst snd] in *; apply km_skip; [discriminate|assumption]).
        * destruct (IH _ _ _ _ _ Ha Hi Hr) as [m Hk]. exists (S m). cbn [fst snd] in *. now apply km_in.
    - destruct (in_both _ _ _ _ H Hin) as [(a & Ha & Hi)|(a & Ha & Hi)].
      + destruct (IH _ _ _ _ _ Ha Hi Hr) as [m Hk]. exists (S m). cbn [fst snd] in *. now apply km_out.
      + destruct op; [injection Ha as <-; destruct Hi| |]; (destruct s as [t|];
          [injection Ha as <-; destruct Hi as [<-|[]]; destruct Hr as (i' & -> & m & Hk); exists (S m); cbn [fst snd] in *; apply km_sep; [discriminate|assumption]
          |destruct (IH _ _ _ _ _ Ha Hi Hr) as [m Hk]; exists (S m); cbn [fst snd] in *; apply km_more; [discriminate|assumption]]).
  Qed.
  Lemma closures_cons th l : closures (th :: l) = both (closure DEPTH th) (closures l).
  Proof. reflexivity. Qed.
  Lemma closures_sound l : forall rs r i b, closures l = Some rs -> In r rs -> rm r i b -> exists th, In th l /\ tm th i b.
  Proof.
    induction l as [|th l IH]; intros rs r i b H Hin Hr; [injection H as <-; destruct Hin|]. rewrite closures_cons in H.
    destruct (in_both _ _ _ _ H Hin) as [(a & Ha & Hi)|(a & Ha & Hi)].
    - exists th. split; [now left|]. eapply closure_sound; eauto.
    - destruct (IH _ _ _ _ Ha Hi Hr) as (th' & Hi' & Ht). exists th'. split; [now right|assumption].
  Qed.
  Lemma tm_start ps i b : tm ([], map KP ps) i b -> sm ps i [] b.
  Proof.
    intros [n H]. cbn in H. rewrite <- (app_nil_r (map KP ps)) in H.
    destruct (proj1 (km_split n) _ _ _ _ _ H) as (m & r & bs & _ & Hs & Hk). rewrite app_nil_r in Hk.
    inversion Hk; subst. now rewrite rev_involutive.
  Qed.
  Lemma run_sound n : forall rs i b, run n rs i = Match b -> exists r, In r rs /\ rm r i b.
  Proof.
    induction n as [|n IH]; intros rs i b H; [discriminate|]. cbn [Match.run] in H.
    assert (Go : forall ths i' b', match closures ths with Some l' => run n l' i' | None => NoFuel end = Match b' ->
      exists th, In th ths /\ tm th i' b').
    { intros ths i' b' Hg. destruct (closures ths) as [l'|] eqn:Ec; [|discriminate].
      destruct (IH _ _ _ Hg) as (r & Hi & Hr). eapply closures_sound; eauto. }
    destruct i as [|t i].
    - destruct (ends rs) as [|b0 [|]] eqn:Ee; try discriminate. injection H as <-.
      assert (Hin : In b0 (ends rs)) by (rewrite Ee; now left). unfold ends in Hin. apply in_flat_map in Hin. destruct Hin as (r & Hr & Hb).
      destruct r; try now destruct Hb. destruct Hb as [->|[]]. exists (REnd b0). split; [assumption|]. split; reflexivity.
    - destruct (frag_next t rs) as [|[f [cur k]] [|]] eqn:Ef; destruct (tok_next t rs) as [|th ths] eqn:Et;
        destruct (grp_next t rs) as [|[[q inner] [cur' k']] [|]] eqn:Eg; try discriminate.
      + destruct (match closures [([], map KP q)] with Some l' => run n l' inner | None => NoFuel end) as [b1| | |] eqn:E1; try discriminate.
        destruct (Go _ _ _ E1) as (th1 & [<-|[]] & H1). destruct (Go _ _ _ H) as (th2 & [<-|[]] & H2).
        assert (Hin : In (q, inner, (cur', k')) (grp_next t rs)) by (rewrite Eg; now left).
        unfold grp_next in Hin. apply in_flat_map in Hin. destruct Hin as (r & Hr & Hb).
        destruct r as [|? ?|d ps th|? ?]; try now destruct Hb. destruct t as [| | |d' l']; try now destruct Hb.
        destruct (delim_eqb d d') eqn:Ed; [|now destruct Hb]. apply delim_eqb_eq in Ed. subst d'.
        destruct Hb as [[= -> -> ->]|[]]. eexists. split; [exact Hr|]. cbn. exists inner, i, b1. split; [reflexivity|]. split; [now apply tm_start|assumption].
      + destruct (Go _ _ _ H) as (th' & Hi & Ht).
        rewrite <- Et in Hi. unfold tok_next in Hi. apply in_flat_map in Hi. destruct Hi as (r & Hr & Hb).
        destruct r as [|t' th2| |]; try now destruct Hb. destruct (token_eqb t' t) eqn:Etk; [|now destruct Hb].
        apply token_eqb_eq in Etk. subst t'. destruct Hb as [->|[]]. eexists. split; [exact Hr|]. cbn. eauto.
      + destruct (parse f (t :: i)) as [| |v i'] eqn:Ep; try discriminate.
        destruct (Go _ _ _ H) as (th' & [<-|[]] & Ht).
        assert (Hin : In (f, (cur, k)) (frag_next t rs)) by (rewrite Ef; now left).
        unfold frag_next in Hin. apply in_flat_map in Hin. destruct Hin as (r & Hr & Hb).
        destruct r as [| | |f' th']; try now destruct Hb. destruct (begin_ok f' t) eqn:Eb; [|now destruct Hb].
        destruct Hb as [[= -> ->]|[]]. eexists. split; [exact Hr|]. cbn. exists t, i, i', v. auto.
  Qed.
  Theorem matches_sound ps ts b : matches ps ts = Match b -> sm ps ts [] b.
  Proof.
    unfold Match.matches. destruct (closures _) as [l|] eqn:Ec; [|discriminate]. intros H.
    destruct (run_sound _ _ _ _ H) as (r & Hi & Hr). destruct (closures_sound _ _ _ _ _ Ec Hi Hr) as (th & [<-|[]] & Ht).
    now apply tm_start.
  Qed.
  Lemma first_rule_sound {X} (rs : list (rule X)) ts x : first_rule begins_expr expr_len path_len rs ts = Some x ->
    exists before r after b, rs = before ++ r :: after /\ (forall r', In r' before -> matches (lhs r') ts = NoMatch) /\
      sm (lhs r) ts [] b /\ rhs r b = Some x.
  Proof.
    induction rs as [|r rs IH]; [discriminate|]. cbn. destruct (matches (lhs r) ts) as [b| | |] eqn:E; try discriminate; intros H.
    - exists [], r, rs, b. split; [reflexivity|]. split; [intros r' []|]. split; [now apply matches_sound|assumption].
    - destruct (IH H) as (before & r0 & after & b & -> & Hb & Hs & Hx). exists (r :: before), r0, after, b. split; [reflexivity|].
      split; [|auto]. intros r' [<-|Hi]; auto.
  Qed.
End Facts.
