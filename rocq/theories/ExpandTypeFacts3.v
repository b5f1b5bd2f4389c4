(** The grammar of [describe_type!] with names and the one with values. *)
From Coq Require Import Arith.
From Verif Require Import Tokens Match Syntax SyntaxSpec SyntaxFacts8 SyntaxFacts9 Expand ExpandType ExpandTypeSpec ExpandTypeFacts ExpandTypeFacts2.
Local Open Scope string_scope. Local Open Scope list_scope.

Section Facts.
  Variables (C : caller) (l : variables).
  Hypothesis HC : has_variables C l.
  Notation vars := (value_of l).

  Definition w_type (ts : list tree) (d : describe) : Prop := exists xd, written C ts xd /\ means vars xd d.
  Definition w_value (ts : list tree) (d : describe_value) : Prop := exists xd, written_value C ts xd /\ means_value vars xd d.

  Lemma form_written n : (forall ts d, tokens ts <= n -> type_form C ts d -> w_type ts d) /\ (forall ts d, tokens ts <= n -> value_form C ts d -> w_value ts d).
  Proof.
    induction n as [n IH] using lt_wf_ind.
    assert (A : forall ts d, tokens ts <= n -> type_form C ts d -> w_type ts d).
    { intros ts d Hn H. destruct H as [v m Hv Hm|ds d v t Hd Hv Hm|ds d fs f es e vs v Hd Hf He Hvs|ds d fs f es e Hd Hf He|ds d fs f es e Hd Hf He|ds d Hd|ds d vs v Hd Hv|ds d ps ll Hd Hl].
      - eexists. split; constructor; [exact Hv|]. now apply (proj1 (HC v)).
      - eexists. split; constructor; [exact Hd|exact Hv|]. now apply (proj1 (proj2 (HC v))).
      - eexists. split; constructor; assumption.
      - eexists. split; constructor; assumption.
      - eexists. split; constructor; assumption.
      - eexists. split; constructor; assumption.
      - assert (Hs : tokens vs < n).
        { unfold form in Hn. rewrite !tokens_cons, tokens_group, tokens_app, !tokens_cons, tokens_group in Hn. lia. }
        destruct (proj2 (IH _ Hs) vs v (le_n _) Hv) as (x & Hx & Hm). eexists. split; constructor; eassumption.
      - assert (Hs : tokens ps < n).
        { unfold form in Hn. rewrite !tokens_cons, tokens_group, tokens_app, !tokens_cons, tokens_group in Hn. lia. }
        assert (exists xl, many (written_property C) ps xl /\ means_properties vars xl ll) as (xl & Hx & Hm).
        { clear Hd Hn. revert Hs. induction Hl as [|ts p rest xs Hp Hr IHr]; intros Hs; [exists []; split; constructor|].
          rewrite tokens_app in Hs. destruct IHr as (xl & Hx & Hm); [lia|].
          destruct Hp as [k vs v Hk Hv|k vs v Hk Hv]; cbn [app] in Hs; rewrite ?tokens_cons, ?tokens_group in Hs;
            destruct (proj2 (IH (tokens vs) ltac:(lia)) vs v (le_n _) Hv) as (x & Hx' & Hm');
            (eexists ((k, _, x) :: xl); split; [apply mn_more; [constructor; eassumption|exact Hx]|constructor; eassumption]). }
        eexists. split; constructor; eassumption. }
    split; [exact A|]. intros ts d Hn H. destruct H as [s|v s Hv Hs|ts d Hd].
    - eexists. split; constructor.
    - eexists. split; [constructor; exact Hv|constructor]. now apply (proj2 (proj2 (HC v))).
    - destruct (A _ _ Hn Hd) as (x & Hx & Hm). eexists. split; constructor; eassumption.
  Qed.
  Lemma written_form n : (forall ts xd d, tokens ts <= n -> written C ts xd -> means vars xd d -> type_form C ts d) /\
    (forall ts xd d, tokens ts <= n -> written_value C ts xd -> means_value vars xd d -> value_form C ts d).
  Proof.
    induction n as [n IH] using lt_wf_ind.
    assert (A : forall ts xd d, tokens ts <= n -> written C ts xd -> means vars xd d -> type_form C ts d).
    { intros ts xd d' Hn H M. destruct H as [v Hv|ds d v Hd Hv|ds d fs f es e vs v Hd Hf He Hvs|ds d fs f es e Hd Hf He|ds d fs f es e Hd Hf He|ds d Hd|ds d vs v Hd Hv|ds d ps ll Hd Hl]; inversion M; subst.
      - constructor; [exact Hv|]. now apply (proj1 (HC v)).
      - constructor; [exact Hd|exact Hv|]. now apply (proj1 (proj2 (HC v))).
      - constructor; assumption.
      - constructor; assumption.
      - constructor; assumption.
      - constructor; assumption.
      - assert (Hs : tokens vs < n).
        { unfold form in Hn. rewrite !tokens_cons, tokens_group, tokens_app, !tokens_cons, tokens_group in Hn. lia. }
        constructor; [exact Hd|]. eapply (proj2 (IH _ Hs)); eauto.
      - assert (Hs : tokens ps < n).
        { unfold form in Hn. rewrite !tokens_cons, tokens_group, tokens_app, !tokens_cons, tokens_group in Hn. lia. }
        constructor; [exact Hd|]. clear Hd Hn M. match goal with M : means_properties _ _ ?l' |- _ => revert l' M end. 
        revert Hs. induction Hl as [|ts p rest xs Hp Hr IHr]; intros Hs l' M; inversion M; subst; [constructor|].
        rewrite tokens_app in Hs. apply mn_more; [|apply IHr; [lia|assumption]].
        inversion Hp; subst; cbn [app] in Hs; rewrite ?tokens_cons, ?tokens_group in Hs; (constructor; [assumption|]);
          (eapply (proj2 (IH _ _)); [apply le_n|eassumption|eassumption]). }
    split; [exact A|]. intros ts xd d Hn H M. destruct H as [s|v Hv|ts xd Hd]; inversion M; subst.
    - constructor.
    - constructor; [exact Hv|]. now apply (proj2 (proj2 (HC v))).
    - constructor. eapply A; eassumption.
    Unshelve. all: lia.
  Qed.
  Lemma grammars_agree ts d : type_form C ts d <-> exists xd, written C ts xd /\ means vars xd d.
  Proof.
    split; [exact (proj1 (form_written _) ts d (le_n _))|]. intros (xd & H & M). exact (proj1 (written_form _) ts xd d (le_n _) H M).
  Qed.
End Facts.

Section One.
  Variable C : caller.
  Lemma same_description ds d ds' d' : ds = ds' -> optional "description" (literal C) ds d -> optional "description" (literal C) ds' d' -> d = d'.
  Proof.
    intros <- H H'. pose proof (type_one_meaning C _ _ _ (tf_boolean C ds d H) (tf_boolean C ds d' H')) as E. now injection E.
  Qed.
  Lemma last_three {A} (l l' : list A) a b c a' b' c' : l ++ [a; b; c] = l' ++ [a'; b'; c'] -> l = l' /\ c = c'.
  Proof.
    intros H. change (l ++ [a; b; c]) with (l ++ [a; b] ++ [c]) in H. change (l' ++ [a'; b'; c']) with (l' ++ [a'; b'] ++ [c']) in H.
    rewrite !app_assoc in H. apply app_inj_tail in H. destruct H as [H ->].
    change [a; b] with ([a] ++ [b]) in H. change [a'; b'] with ([a'] ++ [b']) in H. rewrite !app_assoc in H. apply app_inj_tail in H. destruct H as [H _].
    apply app_inj_tail in H. now destruct H as [-> _].
  Qed.
  Lemma form_inj k k' i i' : form k i = form k' i' -> i = i'.
  Proof. unfold form. intros H. now injection H. Qed.
  Lemma written_head ts d : written C ts d -> exists k rest, ts = tk_id k :: ARROW :: rest /\ u k <> u "link".
  Proof. intros []; (eexists _, _; split; [reflexivity|]; discriminate). Qed.
  Lemma written_once n : (forall ts d d', tokens ts <= n -> written C ts d -> written C ts d' -> d = d') /\
    (forall ts d d', tokens ts <= n -> written_value C ts d -> written_value C ts d' -> d = d').
  Proof.
    induction n as [n IH] using lt_wf_ind.
    assert (A : forall ts d d', tokens ts <= n -> written C ts d -> written C ts d' -> d = d').
    { intros ts d0 d' Hn H H'. destruct H as [v Hv|ds d v Hd Hv|ds d fs f es e vs v Hd Hf He Hvs|ds d fs f es e Hd Hf He|ds d fs f es e Hd Hf He|ds d Hd|ds d vs v Hd Hv|ds d ps ll Hd Hl];
        inversion H' as [v' Hv'|ds' e' v' Hd' Hv'|ds' e' fs' f' es' g' vs' v' Hd' Hf' He' Hvs'|ds' e' fs' f' es' g' Hd' Hf' He'|ds' e' fs' f' es' g' Hd' Hf' He'|ds' e' Hd'|ds' e' vs' v' Hd' Hv'|ds' e' ps' ll' Hd' Hl'].
      all: try discriminate.
      - reflexivity.
      - match goal with E : _ = _ |- _ => apply last_three in E; destruct E as [E [= <-]] end. f_equal. eapply same_description; [symmetry|exact Hd|exact Hd']. assumption.
      - pose proof (tf_string C _ _ _ _ _ _ _ _ Hd Hf He Hvs) as T. pose proof (tf_string C _ _ _ _ _ _ _ _ Hd' Hf' He' Hvs') as T'.
        match goal with E : ds' ++ _ = _ |- _ => rewrite E in T' end. pose proof (type_one_meaning C _ _ _ T T') as E. injection E as -> -> -> ->. reflexivity.
      - pose proof (tf_number C _ _ _ _ _ _ Hd Hf He) as T. pose proof (tf_number C _ _ _ _ _ _ Hd' Hf' He') as T'.
        match goal with E : ds' ++ _ = _ |- _ => rewrite E in T' end. pose proof (type_one_meaning C _ _ _ T T') as E. injection E as -> -> ->. reflexivity.
      - pose proof (tf_integer C _ _ _ _ _ _ Hd Hf He) as T. pose proof (tf_integer C _ _ _ _ _ _ Hd' Hf' He') as T'.
        match goal with E : ds' ++ _ = _ |- _ => rewrite E in T' end. pose proof (type_one_meaning C _ _ _ T T') as E. injection E as -> -> ->. reflexivity.
      - f_equal. subst. eapply same_description; [reflexivity|exact Hd|exact Hd'].
      - match goal with E : ds' ++ _ = _ |- _ => apply last_three in E; destruct E as [-> [= ->]] end.
        assert (Hs : tokens vs < n). { unfold form in Hn. rewrite !tokens_cons, tokens_group, tokens_app, !tokens_cons, tokens_group in Hn. lia. }
        f_equal; [eapply same_description; [reflexivity|exact Hd|exact Hd']|]. exact (proj2 (IH _ Hs) _ _ _ (le_n _) Hv Hv').
      - match goal with E : ds' ++ _ = _ |- _ => apply last_three in E; destruct E as [-> [= ->]] end.
        assert (Hs : tokens ps < n). { unfold form in Hn. rewrite !tokens_cons, tokens_group, tokens_app, !tokens_cons, tokens_group in Hn. lia. }
        f_equal; [eapply same_description; [reflexivity|exact Hd|exact Hd']|].
        clear - IH Hl Hl' Hs. revert ll' Hl' Hs. induction Hl as [|ts p rest xs Hp Hr IHr]; intros l' H' Hs.
        + inversion H' as [|ts' p' rest' xs' Hp' Hr' E]; [reflexivity|]. inversion Hp'; subst; discriminate.
        + rewrite tokens_app in Hs. inversion H' as [E|ts' p' rest' xs' Hp' Hr' E]; [inversion Hp; subst; discriminate|]. subst.
          inversion Hp as [k vs v Hk Hv|k vs v Hk Hv]; inversion Hp' as [k' vs' v' Hk' Hv'|k' vs' v' Hk' Hv']; subst; try discriminate; cbn [app] in E; injection E as -> -> ->;
            rewrite !tokens_cons, !tokens_group in Hs;
            (assert (Hv2 : tokens vs < n) by lia; rewrite (proj2 (IH _ Hv2) _ _ _ (le_n _) Hv Hv'); f_equal; apply IHr; [exact Hr'|lia]). }
    split; [exact A|]. intros ts d d' Hn H H'. destruct H as [s|v Hv|ts d Hd]; inversion H' as [s'|v' Hv'|ts' e Hd']; subst.
    all: try reflexivity.
    all: try (match goal with Hd : written _ _ _ |- _ => destruct (written_head _ _ Hd) as (k & rest & [= Ek <-] & Hk) end; congruence).
    all: try (f_equal; eapply A; eassumption).
    all: match goal with Hd : written _ _ _ |- _ => destruct (written_head _ _ Hd) as (k & rest & Ek & Hk); injection Ek; intros; exfalso; apply Hk; congruence end.
  Qed.
  Lemma written_unique ts d d' : written C ts d -> written C ts d' -> d = d'.
  Proof. exact (proj1 (written_once _) ts d d' (le_n _)). Qed.
End One.

Lemma source_runs C l mk ts xd m : has_variables C l -> mk <> [] -> written C ts xd ->
  ((exists e, run_type mk xd (caller_frame l) = Some (m, e)) <-> Syntax.describe_type_macro C ts = Some m /\ NoDup (moved xd)).
Proof.
  intros HC Hmk Hw. rewrite type_result by exact Hmk. rewrite type_model. split.
  - intros (d' & M & Hn & ->). split; [|exact Hn]. exists d'. split; [|reflexivity]. apply (grammars_agree C l HC). eauto.
  - intros ((d & Hd & ->) & Hn). apply (grammars_agree C l HC) in Hd. destruct Hd as (xd' & Hw' & M).
    rewrite (written_unique C _ _ _ Hw' Hw) in M. eauto.
Qed.
