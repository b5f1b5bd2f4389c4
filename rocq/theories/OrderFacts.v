(** Facts for C80: what running code evaluates. *)
From Coq Require Import List NArith Bool Lia Permutation.
From Verif Require Import Str Api Expand Trace OrderSpec.
Import ListNotations.

(** ** The expressions in code, where those after a choice are none *)
Inductive does_e : rexpr -> list uexpr -> Prop :=
| de_user f : does_e (EUser f) [f]
| de_var x : does_e (EVar x) []
| de_val v : does_e (EVal v) []
| de_callback : does_e ECallbackObject []
| de_string x T : does_e x T -> does_e (EToString x) T
| de_con c x T : does_e x T -> does_e (ECon c x) T
| de_extract0 : does_e (EExtract None) []
| de_extract x T : does_e x T -> does_e (EExtract (Some x)) T
| de_or x y T T' : does_e x T -> does_e y T' -> does_e (EOr x y) (T ++ T')
| de_else x y T : does_e x T -> does_e y [] -> does_e (EUnwrapOrElse x y) T
| de_reason c : does_e (EReason c) []
| de_mention r t : does_e (EMention r t) []
| de_scheme r x y T T' : does_e x T -> does_e y T' -> does_e (EMentionScheme r x y) (T ++ T')
| de_struct n l T : does_f l T -> does_e (EStruct n l) T
| de_kind x b r T : does_e x T -> does_e b [] -> does_e r [] -> does_e (EMatchKind x b r) T
| de_pair x y T T' : does_e x T -> does_e y T' -> does_e (EPair x y) (T ++ T')
| de_vec l T : does_v l T -> does_e (EVec l) T
| de_colon x T : does_e x T -> does_e (EAfterColon x) T
| de_first x T : does_e x T -> does_e (EFirst x) T
| de_rest x T : does_e x T -> does_e (ERest x) T
| de_lower x T : does_e x T -> does_e (EToLowercase x) T
| de_concat x y T T' : does_e x T -> does_e y T' -> does_e (EConcat x y) (T ++ T')
| de_block l x T T' : does_l l T -> does_e x T' -> does_e (EBlock l x) (T ++ T')
with does_f : list (fname * rexpr) -> list uexpr -> Prop :=
| df_nil : does_f [] []
| df_cons f x l T T' : does_e x T -> does_f l T' -> does_f ((f, x) :: l) (T ++ T')
with does_v : list rexpr -> list uexpr -> Prop :=
| dv_nil : does_v [] []
| dv_cons x l T T' : does_e x T -> does_v l T' -> does_v (x :: l) (T ++ T')
with does_s : stmt -> list uexpr -> Prop :=
| ds_let i x T : does_e x T -> does_s (SLet i x) T
| ds_assign i x T : does_e x T -> does_s (SAssign i x) T
| ds_set i f x T : does_e x T -> does_s (SSet i f x) T
| ds_push i f x T : does_e x T -> does_s (SPush i f x) T
| ds_insert i f k x T T' : does_e k T -> does_e x T' -> does_s (SInsert i f k x) (T ++ T')
| ds_call i m x T : does_e x T -> does_s (SCall i m x) T
| ds_block l T : does_l l T -> does_s (SBlock l) T
| ds_norule T : does_s SNoRule T
with does_l : list stmt -> list uexpr -> Prop :=
| dl_nil : does_l [] []
| dl_cons s l T T' : does_s s T -> does_l l T' -> does_l (s :: l) (T ++ T')
| dl_norule l T : does_l (SNoRule :: l) T.
Scheme does_e_m := Minimality for does_e Sort Prop
  with does_f_m := Minimality for does_f Sort Prop
  with does_v_m := Minimality for does_v Sort Prop
  with does_s_m := Minimality for does_s Sort Prop
  with does_l_m := Minimality for does_l Sort Prop.
Combined Scheme does_ind from does_e_m, does_f_m, does_v_m, does_s_m, does_l_m.

Section Run.
  Variable E : env.
  Variable fuel : nat.
  Variable reason : N -> option str.
  Variable imported : bool.
  Variable answer : history -> uexpr -> scope -> option val.

  Definition alive (h t : history) : Prop := forall a e b, t = a ++ e :: b -> exists sc, answer (h ++ a) e sc <> None.
  Definition almost (h t : history) : Prop := forall a e b, t = a ++ e :: b -> b <> [] -> exists sc, answer (h ++ a) e sc <> None.
  Definition does {A} (m : traced A) (T : list uexpr) : Prop :=
    forall h, exists t r, snd (m h) = h ++ t /\ T = t ++ r /\ (forall a, fst (m h) = Done a -> r = [] /\ alive h t) /\ almost h t /\
      (forall a e, t = a ++ [e] -> (forall sc, answer (h ++ a) e sc = None) -> fst (m h) = Panicked).

  Lemma alive_nil h : alive h [].
  Proof. intros a e b H. now destruct a. Qed.
  Lemma almost_nil h : almost h [].
  Proof. intros a e b H. now destruct a. Qed.
  Lemma alive_almost h t : alive h t -> almost h t.
  Proof. intros H a e b Ht _. now apply (H a e b). Qed.
  Lemma split_cases {A} (t1 t2 a b : list A) e : t1 ++ t2 = a ++ e :: b ->
    (exists b', t1 = a ++ e :: b') \/ (exists a', a = t1 ++ a' /\ t2 = a' ++ e :: b).
  Proof.
    revert a. induction t1 as [|x t1 IH]; intros a H; [right; exists a; auto|].
    destruct a as [|y a]; cbn in H; injection H as -> H; [left; now exists t1|].
    destruct (IH a H) as [[b' ->]|(a' & -> & ->)]; [left; now exists b'|right; now exists a'].
  Qed.
  Lemma alive_app h t1 t2 : alive h t1 -> alive (h ++ t1) t2 -> alive h (t1 ++ t2).
  Proof.
    intros H1 H2 a e b Ht. destruct (split_cases _ _ _ _ _ Ht) as [[b' H]|(a' & -> & H)]; [now apply (H1 a e b')|].
    rewrite app_assoc. now apply (H2 a' e b).
  Qed.
  Lemma almost_app h t1 t2 : alive h t1 -> almost (h ++ t1) t2 -> almost h (t1 ++ t2).
  Proof.
    intros H1 H2 a e b Ht Hb. destruct (split_cases _ _ _ _ _ Ht) as [[b' H]|(a' & -> & H)]; [now apply (H1 a e b')|].
    rewrite app_assoc. now apply (H2 a' e b).
  Qed.

  Lemma does_ret {A} (a : A) : does (ret a) [].
  Proof. intros h. exists [], []. cbn. rewrite app_nil_r. repeat split; auto using alive_nil, almost_nil; now intros [|]. Qed.
  Lemma does_out {A} (o : outcome A) : does (out o) [].
  Proof. intros h. exists [], []. cbn. rewrite app_nil_r. repeat split; auto using alive_nil, almost_nil; now intros [|]. Qed.
  Lemma does_bind {A B} (m : traced A) (k : A -> traced B) T1 T2 : does m T1 -> (forall a, does (k a) T2) -> does (andthen m k) (T1 ++ T2).
  Proof.
    intros Hm Hk h. destruct (Hm h) as (t & r & H1 & -> & H2 & H3 & H4). unfold andthen. destruct (m h) as [o h1]. cbn in H1, H2, H4. subst h1.
    assert (Hd : (exists a, o = Done a) \/ (forall a, o <> Done a)) by (destruct o; eauto; right; discriminate).
    destruct Hd as [[a ->]|Hd].
    - destruct (H2 a eq_refl) as [-> Ha]. destruct (Hk a (h ++ t)) as (t2 & r2 & K1 & -> & K2 & K3 & K4).
      exists (t ++ t2), r2. rewrite app_nil_r, !app_assoc. split; [exact K1|]. split; [reflexivity|]. split; [|split; [now apply almost_app|] ].
      + intros b Hb. destruct (K2 b Hb) as [-> Hl]. split; [reflexivity|]. now apply alive_app.
      + intros b e Hb Hp. destruct (split_cases _ _ _ _ _ Hb) as [[b' H]|(a' & -> & H)].
        * destruct (Ha b e b' H) as [sc Hs]. now rewrite Hp in Hs.
        * rewrite app_assoc in Hp. exact (K4 a' e H Hp).
    - exists t, (r ++ T2). rewrite app_assoc. destruct o; try (now destruct (Hd a)); cbn; repeat split; auto; try discriminate; intros a e Ht Hp; specialize (H4 a e Ht Hp); discriminate.
  Qed.
  Lemma does_bind0 {A B} (m : traced A) (k : A -> traced B) T : does m T -> (forall a, does (k a) []) -> does (andthen m k) T.
  Proof. intros. rewrite <- (app_nil_r T). now apply does_bind. Qed.
  Lemma does_bind1 {A B} (m : traced A) (k : A -> traced B) T : does m [] -> (forall a, does (k a) T) -> does (andthen m k) T.
  Proof. intros. change T with ([] ++ T). now apply does_bind. Qed.
  Lemma does_reject {A} T : does (@out A Rejected) T.
  Proof. intros h. exists [], T. cbn. rewrite app_nil_r. repeat split; auto using almost_nil; try discriminate; now intros [|]. Qed.
  Lemma does_reject_bind {A B} (k : A -> traced B) T : does (andthen (out Rejected) k) T.
  Proof. intros h. exists [], T. cbn. rewrite app_nil_r. repeat split; auto using almost_nil; try discriminate; now intros [|]. Qed.
  Lemma does_user f e : does (teval E fuel reason imported answer (EUser f) e) [f].
  Proof.
    intros h. exists [f], []. split; [reflexivity|]. split; [reflexivity|]. cbn. split; [|split].
    - intros v Hv. split; [reflexivity|]. intros a e' b Ht. destruct a as [|x a]; [|destruct a; discriminate].
      cbn in Ht. injection Ht as <- <-. rewrite app_nil_r. exists (scope_of e). destruct (answer h f (scope_of e)); discriminate.
    - intros a e' b Ht Hb. destruct a as [|x a]; [|destruct a; discriminate]. cbn in Ht. injection Ht as <- <-. now destruct Hb.
    - intros a e' Ht Hp. destruct a as [|x a]; [|destruct a; discriminate]. cbn in Ht. injection Ht as <-. rewrite app_nil_r in Hp. now rewrite Hp.
  Qed.

  Ltac fin := repeat (match goal with
    | |- does (andthen _ _) [] => first [apply does_bind0|fail]
    | |- does (out _) [] => apply does_out
    | |- does (ret _) [] => apply does_ret
    | |- forall _, _ => intro
    | |- context [match ?x with _ => _ end] => destruct x
    end).
  Lemma code_does :
    (forall x T, does_e x T -> forall e, does (teval E fuel reason imported answer x e) T) /\
    (forall l T, does_f l T -> forall e, does (teval_fields (teval E fuel reason imported answer) l e) T) /\
    (forall l T, does_v l T -> forall e, does (teval_all (teval E fuel reason imported answer) l e) T) /\
    (forall s T, does_s s T -> forall e, does (trun E fuel reason imported answer s e) T) /\
    (forall l T, does_l l T -> forall e, does (trun_all (trun E fuel reason imported answer) l e) T).
  Proof.
    apply does_ind; intros; try apply does_user; cbn;
      try solve [fin];
      try solve [apply does_bind0; [auto|fin; auto]];
      try solve [apply does_bind; [auto|intros; fin; apply does_bind0; [auto|fin]]];
      try apply does_reject; try apply does_reject_bind.
    all: try (apply does_bind; [auto|]; intros; auto).
    all: destruct a as [v1 e1]; apply does_bind0; [auto|]; intros [v2 e2]; fin.
  Qed.
End Run.

(** ** Expressions that only have a value *)
Definition pure : history -> uexpr -> scope -> option val := fun _ e s => Some (e s).
Definition same {A} (m : traced A) (o : outcome A) : Prop := forall h, fst (m h) = o.
Lemma same_bind {A B} (m : traced A) (k : A -> traced B) o f : same m o -> (forall a, same (k a) (f a)) -> same (andthen m k) (obind o f).
Proof.
  intros Hm Hk h. specialize (Hm h). unfold andthen. destruct (m h) as [o' h1]. cbn in Hm. subst o'. destruct o; try reflexivity. apply Hk.
Qed.
Lemma same_ret {A} (a : A) : same (ret a) (Done a).
Proof. intros h. reflexivity. Qed.
Lemma same_out {A} (o : outcome A) : same (out o) o.
Proof. intros h. reflexivity. Qed.
Section Erase.
  Variable E : env.
  Variable fuel : nat.
  Variable reason : N -> option str.
  Variable imported : bool.
  Variable answer : history -> uexpr -> scope -> option val.
  Hypothesis Hpure : forall h e s, answer h e s = Some (e s).
  Ltac step := match goal with
    | |- same (andthen _ _) (obind _ _) => apply same_bind
    | |- same (out _) _ => apply same_out
    | |- same (ret _) _ => apply same_ret
    | H : forall e, same _ _ |- same (teval _ _ _ _ _ ?x _) _ => solve [auto]
    | H : forall e, same _ _ |- same (teval_fields _ ?x _) _ => solve [auto]
    | H : forall e, same _ _ |- same (teval_all _ ?x _) _ => solve [auto]
    | H : forall e, same _ _ |- same (trun_all _ ?x _) _ => solve [auto]
    | H : forall e, same _ _ |- same (trun _ _ _ _ _ _ _) _ => solve [auto]
    | |- forall a : prod _ _, _ => intros []
    | |- forall _, _ => intro
    | |- same (match ?x with _ => _ end) _ => destruct x
    | H : forall e, same _ _ |- same _ _ => solve [apply H]
    end.
  Lemma code_same :
    (forall x T, does_e x T -> forall e, same (teval E fuel reason imported answer x e) (eval E fuel reason imported x e)) /\
    (forall l T, does_f l T -> forall e, same (teval_fields (teval E fuel reason imported answer) l e) (eval_fields (eval E fuel reason imported) l e)) /\
    (forall l T, does_v l T -> forall e, same (teval_all (teval E fuel reason imported answer) l e) (eval_all (eval E fuel reason imported) l e)) /\
    (forall s T, does_s s T -> forall e, same (trun E fuel reason imported answer s e) (run E fuel reason imported s e)) /\
    (forall l T, does_l l T -> forall e, same (trun_all (trun E fuel reason imported answer) l e) (run_all (run E fuel reason imported) l e)).
  Proof.
    apply does_ind; intros; try (intro; cbn; rewrite ?Hpure; reflexivity); cbn; repeat step.
  Qed.
End Erase.
