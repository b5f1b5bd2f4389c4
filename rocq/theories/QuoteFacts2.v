(** Running the quoted code to the end: proofs. *)
From Verif Require Import GenSpec QuoteSpec QuoteFacts GenFacts.
From Coq Require Import Lia.

(** what the first [n] levels of calls show agrees with the model *)
Definition seen (n : nat) (A B : Type) (Q : A -> B -> Prop) (o : nat -> out A) (r : res B) : Prop :=
  o n = NoReturn \/ exists a b, o n = Val a /\ r = Ok b /\ Q a b.
(** what the model says is what the code does, once enough levels are seen *)
Definition reached (A B : Type) (Q : A -> B -> Prop) (o : nat -> out A) (r : res B) : Prop :=
  forall b, r = Ok b -> exists k0 a, (forall k, k0 <= k -> o k = Val a) /\ Q a b.

Lemma seen_ret n A B (Q : A -> B -> Prop) a b : Q a b -> seen n A B Q (fun _ => Val a) (Ok b).
Proof. right. eauto. Qed.
Lemma seen_bind n A B A' B' (Q : A -> B -> Prop) (Q' : A' -> B' -> Prop) o r (f : nat -> A -> out A') g :
  seen n A B Q o r -> (forall a b, Q a b -> seen n A' B' Q' (fun k => f k a) (g b)) -> seen n A' B' Q' (fun k => obind (o k) (f k)) (bind r g).
Proof. intros [H|(a & b & H & -> & Hq)] Hf; unfold seen; rewrite H; cbn; [now left|]. exact (Hf a b Hq). Qed.
Lemma seen_ext n A B (Q : A -> B -> Prop) o o' r : (forall k, o' k = o k) -> seen n A B Q o r -> seen n A B Q o' r.
Proof. intros He. unfold seen. now rewrite He. Qed.
Lemma seen_more n A B (Q : A -> B -> Prop) o r r' : (forall b, r = Ok b -> r' = Ok b) -> seen n A B Q o r -> seen n A B Q o r'.
Proof. intros Hr [H|(a & b & H & He & Hq)]; [now left|right; eauto 6]. Qed.

Lemma reached_ret A B (Q : A -> B -> Prop) a b : Q a b -> reached A B Q (fun _ => Val a) (Ok b).
Proof. intros H b' [= <-]. exists 0, a. auto. Qed.
Lemma reached_bind A B A' B' (Q : A -> B -> Prop) (Q' : A' -> B' -> Prop) o r (f : nat -> A -> out A') g :
  reached A B Q o r -> (forall a b, Q a b -> reached A' B' Q' (fun k => f k a) (g b)) -> reached A' B' Q' (fun k => obind (o k) (f k)) (bind r g).
Proof.
  intros H Hf b' Hb. destruct r as [b|]; [|discriminate]. cbn in Hb. destruct (H b eq_refl) as (k0 & a & Ho & Hq).
  destruct (Hf a b Hq b' Hb) as (k1 & a' & Ho' & Hq'). exists (k0 + k1), a'. split; [|exact Hq'].
  intros k Hk. rewrite Ho by lia. cbn. apply Ho'. lia.
Qed.
Lemma reached_ext A B (Q : A -> B -> Prop) o o' r : (forall k, o' k = o k) -> reached A B Q o r -> reached A B Q o' r.
Proof. intros He H b Hb. destruct (H b Hb) as (k0 & a & Ho & Hq). exists k0, a. split; [|exact Hq]. intros k Hk. rewrite He. now apply Ho. Qed.
Lemma reached_shift A B (Q : A -> B -> Prop) o r : reached A B Q (fun k => o (S k)) r -> reached A B Q o r.
Proof.
  intros H b Hb. destruct (H b Hb) as (k0 & a & Ho & Hq). exists (S k0), a. split; [|exact Hq].
  intros [|k] Hk; [lia|]. apply Ho. lia.
Qed.

Section Correct.
  Variable eval_expr : str -> str.
  Variable E : env.
  Variable P : tid -> impl_code.
  Hypothesis HP : written eval_expr E P.
  Notation rc := (run_call eval_expr (impl_of P)).
  Notation gs n := (get_schema E n).

  (** ** What is observed agrees *)
  Definition agrees (n : nat) : Prop :=
    (forall t cx, seen n _ _ (gives VlModel) (fun k => rc k (Of t T_get_schema) [VlCx] cx) (gs n t cx)) /\
    (forall t p cx, seen n _ _ (gives VlModel) (fun k => rc k (Of t T_get_schema_with_params) [VlCx; VlParams p] cx) (get_schema_with_params (gs n) t p cx)) /\
    (forall t cx, seen n _ _ (gives enc_name) (fun k => rc k (Of t T_type_name) [] cx) (Ok (type_name E t, cx))) /\
    (forall t i p cx, seen n _ _ (gives VlRef) (fun k => rc k (Of t T_select_reference) [VlCx; VlBool i; VlParams p] cx) (select_reference E (gs n) t i p cx)) /\
    (forall t i p cx, seen n _ _ (gives VlRef) (fun k => rc k (Mention t) [VlCx; VlBool i; VlParams p] cx) (mention_schema E (gs n) t i p cx)).
  Lemma all_agree n : agrees n.
  Proof.
    induction n as [|n (Hg & Hw & Hn & Hs & Hm)]; [repeat split; intros; now left|].
    pose proof (get_schema_S E n) as Hle.
    repeat split.
    - intros t cx. exact (step_gs eval_expr rc E (gs n) (seen n) (seen_ret n) (seen_bind n) (seen_ext n) Hm Hw Hg P HP t cx).
    - intros t p cx. eapply seen_more; [|exact (step_with eval_expr rc (gs n) (seen n) (seen_ret n) (seen_bind n) (seen_ext n) Hg t p cx)].
      unfold get_schema_with_params. intros b H. apply bind_Ok in H as (x & H & Hx). now rewrite (Hle _ _ _ H).
    - intros t cx. apply (step_name eval_expr rc E (seen n) (seen_ret n) (seen_bind n) (seen_ext n) P HP t cx).
      destruct t; auto; exact (Hn t).
    - intros t i p cx. eapply seen_more;
        [|exact (step_select_any eval_expr rc E (gs n) (seen n) (seen_ret n) (seen_bind n) (seen_ext n) Hg P HP t i p cx (Hn t))].
      unfold select_reference. intros b H.
      assert (Hi : bind (gs n t cx) (fun '(m, cx') => Ok (Inline (apply_params p m), cx')) = Ok b ->
                   bind (gs (S n) t cx) (fun '(m, cx') => Ok (Inline (apply_params p m), cx')) = Ok b).
      { intros H'. apply bind_Ok in H' as (x & H' & Hx). now rewrite (Hle _ _ _ H'). }
      destruct (overrides_select E t); [auto|]. destruct (type_name E t); [destruct i|]; auto.
    - intros t i p cx. eapply seen_more;
        [|exact (step_mention eval_expr rc E (gs n) (seen n) (seen_ret n) (seen_bind n) (seen_ext n) Hg Hs t i p cx)].
      intros b H. exact (mention_below E _ _ _ _ _ _ _ Hle H).
  Qed.

  (** ** What the model says is reached *)
  Lemma name_reached t cx : reached _ _ (gives enc_name) (fun k => rc k (Of t T_type_name) [] cx) (Ok (type_name E t, cx)).
  Proof.
    revert cx. induction t; intros cx; apply reached_shift;
      refine (step_name eval_expr rc E reached reached_ret reached_bind reached_ext P HP _ cx _); auto.
  Qed.
  Lemma schema_reached n t cx : reached _ _ (gives VlModel) (fun k => rc k (Of t T_get_schema) [VlCx] cx) (gs n t cx).
  Proof.
    revert t cx. induction n as [|n Hg]; [intros t cx b [=]|]. 
    assert (Hw : forall t p cx, reached _ _ (gives VlModel) (fun k => rc k (Of t T_get_schema_with_params) [VlCx; VlParams p] cx) (get_schema_with_params (gs n) t p cx)).
    { intros t p cx. apply reached_shift. exact (step_with eval_expr rc (gs n) reached reached_ret reached_bind reached_ext Hg t p cx). }
    assert (Hs : forall t i p cx, reached _ _ (gives VlRef) (fun k => rc k (Of t T_select_reference) [VlCx; VlBool i; VlParams p] cx) (select_reference E (gs n) t i p cx)).
    { intros t i p cx. apply reached_shift.
      exact (step_select_any eval_expr rc E (gs n) reached reached_ret reached_bind reached_ext Hg P HP t i p cx (name_reached t)). }
    assert (Hm : forall t i p cx, reached _ _ (gives VlRef) (fun k => rc k (Mention t) [VlCx; VlBool i; VlParams p] cx) (mention_schema E (gs n) t i p cx)).
    { intros t i p cx. apply reached_shift. exact (step_mention eval_expr rc E (gs n) reached reached_ret reached_bind reached_ext Hg Hs t i p cx). }
    intros t cx. apply reached_shift. exact (step_gs eval_expr rc E (gs n) reached reached_ret reached_bind reached_ext Hm Hw Hg P HP t cx).
  Qed.
  Lemma mention_reached n t i p cx : reached _ _ (gives VlRef) (fun k => rc k (Mention t) [VlCx; VlBool i; VlParams p] cx) (mention E n t i p cx).
  Proof.
    apply reached_shift. refine (step_mention eval_expr rc E (gs n) reached reached_ret reached_bind reached_ext (schema_reached n) _ t i p cx).
    intros. apply reached_shift.
    exact (step_select_any eval_expr rc E (gs n) reached reached_ret reached_bind reached_ext (schema_reached n) P HP t0 i0 p0 cx0 (name_reached t0)).
  Qed.

  Lemma schema_run t cx v cx' :
    (exists n, rc n (Of t T_get_schema) [VlCx] cx = Val (v, cx')) <-> (exists n m, v = VlModel m /\ gs n t cx = Ok (m, cx')).
  Proof.
    split.
    - intros [n H]. destruct (proj1 (all_agree n) t cx) as [H'|(a & [m c] & H' & Hg & Hq)]; [congruence|].
      rewrite H in H'. injection H' as <-. unfold gives in Hq. cbn in Hq. injection Hq as -> ->. eauto.
    - intros (n & m & -> & H). destruct (schema_reached n t cx _ H) as (k & a & Hk & ->). exists k. now apply Hk.
  Qed.
  Lemma mention_run t i p cx v cx' :
    (exists n, rc n (Mention t) [VlCx; VlBool i; VlParams p] cx = Val (v, cx')) <-> (exists n r, v = VlRef r /\ mention E n t i p cx = Ok (r, cx')).
  Proof.
    split.
    - intros [n H]. destruct (proj2 (proj2 (proj2 (proj2 (all_agree n)))) t i p cx) as [H'|(a & [m c] & H' & Hg & Hq)]; [congruence|].
      rewrite H in H'. injection H' as <-. unfold gives in Hq. cbn in Hq. injection Hq as -> ->. eauto.
    - intros (n & m & -> & H). destruct (mention_reached n t i p cx _ H) as (k & a & Hk & ->). exists k. now apply Hk.
  Qed.
  Lemma schema_not_wrong n t cx : rc n (Of t T_get_schema) [VlCx] cx <> Wrong.
  Proof. destruct (proj1 (all_agree n) t cx) as [H|(a & b & H & _)]; now rewrite H. Qed.
  Lemma mention_not_wrong n t i p cx : rc n (Mention t) [VlCx; VlBool i; VlParams p] cx <> Wrong.
  Proof. destruct (proj2 (proj2 (proj2 (proj2 (all_agree n)))) t i p cx) as [H|(a & b & H & _)]; now rewrite H. Qed.
  Lemma name_run t cx : exists n, rc n (Of t T_type_name) [] cx = Val (VlOpt (option_map VlStr (type_name E t)), cx).
  Proof. destruct (name_reached t cx _ eq_refl) as (k & a & Hk & ->). exists k. now apply Hk. Qed.
End Correct.

(** ** What the derive writes *)
Section Derived.
  Variable parses_expr parses_path : str -> bool.
  Variable uni_upper : N -> bool.
  Variable eval_expr : str -> str.
  Notation derive_code := (derive_code parses_expr parses_path uni_upper).
  Notation derive := (derive parses_expr parses_path uni_upper eval_expr).

  Definition none_gs : ty -> components -> res (model * components) := fun _ _ => Fuel.
  Lemma same_bodies c : match serialize_body c, Derive.serialize_body eval_expr c with Some _, Some _ | None, None => True | _, _ => False end.
  Proof.
    pose proof (body_sim eval_expr (fun _ _ _ _ => Wrong) (fun _ => {| td_ident := []; td_inline := false; td_body := McSchemaWith (TPrim PBool) params_default |})
      none_gs (fun _ _ _ _ _ => True)
      (fun _ _ _ _ _ _ => I) (fun _ _ _ _ _ _ _ _ _ _ _ _ => I) (fun _ _ _ _ _ _ _ _ => I) (fun _ _ _ _ => I) (fun _ _ _ => I) c) as H.
    unfold both in H. destruct (serialize_body c), (Derive.serialize_body eval_expr c); auto.
  Qed.
  Lemma same_outcome self i :
    match derive_code self i, derive i with
    | CodeOk _, DOk _ => True | CodeErr a, DErr b => a = b | CodePanic, DPanic => True | _, _ => False end.
  Proof.
    unfold Quote.derive_code, Derive.derive. destruct (container_from_ast parses_expr parses_path uni_upper i) as [[|c|] es].
    - destruct es; auto.
    - destruct es; auto. pose proof (same_bodies c). destruct (serialize_body c), (Derive.serialize_body eval_expr c); auto.
    - auto.
  Qed.
  Lemma derived_written src P E : (forall id, derive_code (TNamed id) (src id) = CodeOk (P id)) -> (forall id, derive (src id) = DOk (E id)) ->
    written eval_expr E P.
  Proof.
    intros HP HE id. specialize (HP id). specialize (HE id). unfold Quote.derive_code in HP. unfold Derive.derive in HE.
    destruct (container_from_ast parses_expr parses_path uni_upper (src id)) as [[|c|] [|e es]]; try discriminate.
    destruct (serialize_body c) as [b|] eqn:Hb; [|discriminate]. destruct (Derive.serialize_body eval_expr c) as [m|] eqn:Hm; [|discriminate].
    injection HP as <-. injection HE as <-. exists c, b. auto.
  Qed.
End Derived.

Section Runs.
  Variable eval_expr : str -> str.
  Variable E : env.
  Variable P : tid -> impl_code.
  Hypothesis HP : written eval_expr E P.
  Notation rc := (run_call eval_expr (impl_of P)).
  Lemma schema_one t cx v cx1 w cx2 : (exists n, rc n (Of t T_get_schema) [VlCx] cx = Val (v, cx1)) ->
    (exists n, rc n (Of t T_get_schema) [VlCx] cx = Val (w, cx2)) -> w = v /\ cx2 = cx1.
  Proof.
    intros H1 H2. apply (schema_run eval_expr E P HP) in H1 as (n1 & m1 & -> & H1), H2 as (n2 & m2 & -> & H2).
    apply (get_schema_le E n1 (n1 + n2)) in H1; [|lia]. apply (get_schema_le E n2 (n1 + n2)) in H2; [|lia].
    rewrite H1 in H2. now injection H2 as -> ->.
  Qed.
  Lemma schema_forever t cx : (forall n, rc n (Of t T_get_schema) [VlCx] cx = NoReturn) <-> (forall n, get_schema E n t cx = Fuel).
  Proof.
    split; intros H n.
    - destruct (get_schema E n t cx) as [[m cx']|] eqn:Hg; [|reflexivity].
      destruct (schema_reached eval_expr E P HP n t cx _ Hg) as (k & a & Hk & _). specialize (Hk k (le_n k)). now rewrite H in Hk.
    - destruct (proj1 (all_agree eval_expr E P HP n) t cx) as [H'|(a & b & H' & Hg & _)]; [exact H'|]. now rewrite H in Hg.
  Qed.
End Runs.

(** ** Together *)
Lemma run_get_schema : forall parses_expr parses_path uni_upper eval_expr src P E t cx v cx',
  compiled parses_expr parses_path uni_upper src P -> modelled parses_expr parses_path uni_upper eval_expr src E ->
  (returns eval_expr P (Of t T_get_schema) [VlCx] cx v cx' <-> exists m, v = VlModel m /\ schema_returns E t cx m cx').
Proof.
  intros pe pp uu ee src P E t cx v cx' HP HE.
  etransitivity; [exact (schema_run ee E P (derived_written pe pp uu ee src P E HP HE) t cx v cx')|].
  split; [intros (n & m & Hv & H)|intros (m & Hv & n & H)]; [exists m; split; [exact Hv|now exists n]|now exists n, m].
Qed.
Lemma run_mention_schema : forall parses_expr parses_path uni_upper eval_expr src P E t inline p cx v cx',
  compiled parses_expr parses_path uni_upper src P -> modelled parses_expr parses_path uni_upper eval_expr src E ->
  (returns eval_expr P (Mention t) [VlCx; VlBool inline; VlParams p] cx v cx' <-> exists r, v = VlRef r /\ mention_returns E t inline p cx r cx').
Proof.
  intros pe pp uu ee src P E t i p cx v cx' HP HE.
  etransitivity; [exact (mention_run ee E P (derived_written pe pp uu ee src P E HP HE) t i p cx v cx')|].
  split; [intros (n & m & Hv & H)|intros (m & Hv & n & H)]; [exists m; split; [exact Hv|now exists n]|now exists n, m].
Qed.
Lemma run_type_name : forall parses_expr parses_path uni_upper eval_expr src P E t cx,
  compiled parses_expr parses_path uni_upper src P -> modelled parses_expr parses_path uni_upper eval_expr src E ->
  returns eval_expr P (Of t T_type_name) [] cx (VlOpt (option_map VlStr (type_name E t))) cx.
Proof. intros pe pp uu ee src P E t cx HP HE. exact (name_run ee E P (derived_written pe pp uu ee src P E HP HE) t cx). Qed.
Lemma run_never_wrong : forall parses_expr parses_path uni_upper eval_expr src P E t cx,
  compiled parses_expr parses_path uni_upper src P -> modelled parses_expr parses_path uni_upper eval_expr src E ->
  ~ goes_wrong eval_expr P (Of t T_get_schema) [VlCx] cx /\
  forall inline p, ~ goes_wrong eval_expr P (Mention t) [VlCx; VlBool inline; VlParams p] cx.
Proof.
  intros pe pp uu ee src P E t cx HP HE. pose proof (derived_written pe pp uu ee src P E HP HE) as HW. split.
  - intros [n H]. exact (schema_not_wrong ee E P HW n t cx H).
  - intros i p [n H]. exact (mention_not_wrong ee E P HW n t i p cx H).
Qed.
Lemma run_one_result : forall parses_expr parses_path uni_upper eval_expr src P E t cx,
  compiled parses_expr parses_path uni_upper src P -> modelled parses_expr parses_path uni_upper eval_expr src E ->
  (forall v cx1 w cx2, returns eval_expr P (Of t T_get_schema) [VlCx] cx v cx1 -> returns eval_expr P (Of t T_get_schema) [VlCx] cx w cx2 ->
     w = v /\ cx2 = cx1) /\
  ((forall v cx1, ~ returns eval_expr P (Of t T_get_schema) [VlCx] cx v cx1) <-> schema_diverges E t cx).
Proof.
  intros pe pp uu ee src P E t cx HP HE. pose proof (derived_written pe pp uu ee src P E HP HE) as HW. split.
  - intros v cx1 w cx2. exact (schema_one ee E P HW t cx v cx1 w cx2).
  - split.
    + intros H. unfold schema_diverges. apply (proj1 (schema_forever ee E P HW t cx)). intros n. pose proof (schema_not_wrong ee E P HW n t cx) as Hn.
      destruct (run_call ee (impl_of P) n (Of t T_get_schema) [VlCx] cx) as [[v cx1]| |] eqn:Hr; [|now elim Hn|reflexivity].
      elim (H v cx1). now exists n.
    + intros H v cx1 [n Hn]. now rewrite (proj2 (schema_forever ee E P HW t cx) H n) in Hn.
Qed.
