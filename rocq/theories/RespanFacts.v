(** Tokens given the place of the literal. *)
From Verif Require Import Respan RespanSpec.

Fixpoint token_ind' (P : token -> Prop)
  (HI : forall name p, P (Ident name p)) (HP : forall c j p, P (Punct c j p)) (HL : forall t p, P (Literal t p))
  (HG : forall d l p, Forall P l -> P (Group d l p)) (t : token) : P t :=
  match t with
  | Ident n p => HI n p
  | Punct c j p => HP c j p
  | Literal x p => HL x p
  | Group d l p => HG d l p ((fix go l : Forall P l := match l with [] => Forall_nil _ | x :: r => Forall_cons x (token_ind' P HI HP HL HG x) (go r) end) l)
  end.

Section Facts.
  Variable call_site : place.
  Variable lex : str -> option (list token).

  Lemma respan_same p t : same_text t (respan_token_tree call_site p t).
  Proof.
    induction t as [n q|c j q|x q|d l q IH] using token_ind'; cbn; constructor. induction IH; cbn; constructor; auto.
  Qed.
  Lemma respan_stream_same p l : Forall2 same_text l (respan_token_stream call_site l p).
  Proof. induction l; cbn; constructor; auto using respan_same. Qed.

  Definition all_at (p : place) (t : token) : Prop := forall q, stands_at [t] q -> q = p.
  Lemma all_at_list p l : Forall (all_at p) l -> forall q, stands_at l q -> q = p.
  Proof.
    intros H q Hq. rewrite Forall_forall in H.
    destruct Hq; match goal with Hin : In _ _ |- _ => apply (H _ Hin) end;
      [eapply sa_ident|eapply sa_punct|eapply sa_literal|eapply sa_group|eapply sa_inside]; eauto using in_eq.
  Qed.
  Lemma respan_at p t : all_at p (respan_token_tree call_site p t).
  Proof.
    induction t as [n q|c j q|x q|d l q IH] using token_ind'; intros r Hr; cbn in Hr;
      inversion Hr; subst; match goal with Hin : In _ [_] |- _ => destruct Hin as [Hin|[]] end; try discriminate; try congruence.
    match goal with Hin : Group _ _ _ = Group _ _ _ |- _ => injection Hin as <- <- <- end.
    eapply all_at_list; [|eassumption]. clear - IH. induction IH; cbn; constructor; auto.
  Qed.
  Lemma respan_stream_at p l q : stands_at (respan_token_stream call_site l p) q -> q = p.
  Proof. apply all_at_list. unfold respan_token_stream. induction l; cbn; constructor; auto using respan_at. Qed.

  Lemma tokens_fail v p : spanned_tokens call_site lex v p = None <-> lex v = None.
  Proof. unfold spanned_tokens. destruct (lex v); now split. Qed.
  Lemma tokens_spanned v p l : spanned_tokens call_site lex v p = Some l ->
    (exists l0, lex v = Some l0 /\ Forall2 same_text l0 l) /\ forall q, stands_at l q -> q = p.
  Proof.
    unfold spanned_tokens. destruct (lex v) as [l0|]; [|discriminate]. intros [= <-].
    split; [exists l0; split; [reflexivity|apply respan_stream_same]|apply respan_stream_at].
  Qed.
  Lemma expression_places {T} (parse : list token -> option T) places v p e : keeps_places parse places ->
    parse_lit_str call_site lex parse v p = Some e -> forall q, places e q -> q = p.
  Proof.
    intros Hk. unfold parse_lit_str. destruct (spanned_tokens call_site lex v p) as [l|] eqn:El; [|discriminate]. intros He q Hq.
    destruct (tokens_spanned _ _ _ El) as [_ H]. eapply H, Hk; eassumption.
  Qed.
  Lemma expression_text {T X} (parse : list token -> option T) (text : T -> X) v p : reads_text parse text ->
    option_map text (parse_lit_str call_site lex parse v p) =
    match lex v with Some l => option_map text (parse l) | None => None end.
  Proof.
    intros Hr. unfold parse_lit_str, spanned_tokens. destruct (lex v) as [l|]; [|reflexivity]. symmetry. apply Hr, respan_stream_same.
  Qed.
End Facts.
