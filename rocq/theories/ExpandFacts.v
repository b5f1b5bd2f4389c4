(** Running the code of describe_api! (C77): variables. *)
From Coq Require Import List NArith Bool PeanoNat Lia.
From Verif Require Import Str Api Expand ExpandSpec.
Import ListNotations.

Lemma scope_of_cons x v e : scope_of ((x, v) :: e) = (match id_mark x with [] => [(id_name x, v)] | _ => [] end) ++ scope_of e.
Proof. reflexivity. Qed.
Definition marked (x : ident) : Prop := id_mark x <> [].

(** ** Frames *)
(** the same variables; at most the innermost ones in [M] have other values *)
Inductive sb : (ident -> Prop) -> frame -> frame -> Prop :=
| sb_nil M : sb M [] []
| sb_cons (M : ident -> Prop) x v v' e e' : (M x \/ v = v') -> sb (fun y => M y /\ y <> x) e e' -> sb M ((x, v) :: e) ((x, v') :: e').

Lemma sb_mono (M M' : ident -> Prop) e e' : (forall x, M x -> M' x) -> sb M e e' -> sb M' e e'.
Proof.
  intros HM H. revert M' HM. induction H as [|M x v v' e e' Hv H IH]; intros M' HM; constructor.
  - destruct Hv; auto.
  - apply IH. intros y [Hy Hne]. auto.
Qed.
Lemma sb_refl M e : sb M e e.
Proof. revert M. induction e as [|[x v] e IH]; intros M; constructor; auto. Qed.
Lemma sb_trans M e1 e2 e3 : sb M e1 e2 -> sb M e2 e3 -> sb M e1 e3.
Proof.
  intros H. revert e3. induction H as [|M x v v' e e' Hv H IH]; intros e3 H3; [exact H3|].
  inversion H3; subst. constructor; auto. destruct Hv as [|<-]; auto.
Qed.
Lemma sb_length M e e' : sb M e e' -> length e' = length e.
Proof. induction 1; cbn; auto. Qed.
Lemma sb_app M e1 e2 e : sb M (e1 ++ e2) e -> exists f1 f2, e = f1 ++ f2 /\ map fst f1 = map fst e1 /\ sb (fun y => M y /\ ~ In y (map fst e1)) e2 f2.
Proof.
  revert M e. induction e1 as [|[x v] e1 IH]; intros M e H.
  - exists [], e. split; auto. split; auto. eapply sb_mono; [|exact H]. cbn. tauto.
  - cbn in H. inversion H; subst. apply IH in H6 as (f1 & f2 & -> & Hf & Hs). exists ((x, v') :: f1), f2. split; auto. cbn [map fst]. split; [congruence|].
    eapply sb_mono; [|exact Hs]. cbn. intuition congruence.
Qed.
Lemma sb_lookup M e e' x : sb M e e' -> ~ M x -> lookup x e' = lookup x e.
Proof.
  induction 1 as [|M y v v' e e' Hv H IH]; intros Hx; [reflexivity|]. cbn. destruct (ident_eq_dec x y) as [->|Hne].
  - destruct Hv; [contradiction|congruence].
  - apply IH. tauto.
Qed.
Lemma sb_bound M e e' x : sb M e e' -> (lookup x e' = None <-> lookup x e = None).
Proof. induction 1 as [|M y v v' e e' Hv H IH]; [reflexivity|]. cbn. destruct (ident_eq_dec x y); [easy|auto]. Qed.
Lemma sb_scope M e e' : sb M e e' -> (forall x, M x -> marked x) -> scope_of e' = scope_of e.
Proof.
  induction 1 as [|M y v v' e e' Hv H IH]; intros Hm; [reflexivity|]. rewrite !scope_of_cons, IH; [|intros x [Hx _]; auto]. f_equal.
  destruct Hv as [Hy|<-]; [|reflexivity]. apply Hm in Hy. unfold marked in Hy. destruct (id_mark y); [contradiction|reflexivity].
Qed.
Lemma sb_assign (M : ident -> Prop) x v e : M x -> sb M e (assign x v e).
Proof.
  revert M. induction e as [|[y w] e IH]; intros M Hx; cbn; [constructor|]. destruct (ident_eq_dec x y) as [->|Hne]; constructor; auto using sb_refl.
Qed.
Lemma lookup_assign_same x v e : lookup x e <> None -> lookup x (assign x v e) = Some v.
Proof.
  induction e as [|[y w] e IH]; cbn; [easy|]. destruct (ident_eq_dec x y) as [->|Hne]; cbn; intros H.
  - destruct (ident_eq_dec y y); [reflexivity|contradiction].
  - destruct (ident_eq_dec x y); [contradiction|auto].
Qed.
Lemma lookup_assign_other x y v e : x <> y -> lookup x (assign y v e) = lookup x e.
Proof. intros Hne. apply (sb_lookup (fun z => z = y)); [now apply sb_assign|exact Hne]. Qed.
Lemma lookup_cons_same x v e : lookup x ((x, v) :: e) = Some v.
Proof. cbn. destruct (ident_eq_dec x x); [reflexivity|contradiction]. Qed.
Lemma lookup_cons_other x y v e : x <> y -> lookup x ((y, v) :: e) = lookup x e.
Proof. cbn. intros. destruct (ident_eq_dec x y); [contradiction|reflexivity]. Qed.
Lemma scope_assign x v e : marked x -> scope_of (assign x v e) = scope_of e.
Proof. intros Hx. apply (sb_scope (fun z => z = x)); [now apply sb_assign|]. now intros ? ->. Qed.
Lemma scope_cons x v e : marked x -> scope_of ((x, v) :: e) = scope_of e.
Proof. unfold marked. rewrite scope_of_cons. destruct (id_mark x); [contradiction|reflexivity]. Qed.
Lemma lookup_app_skip x ls e : ~ In x (map fst ls) -> lookup x (ls ++ e) = lookup x e.
Proof.
  induction ls as [|[y v] ls IH]; cbn; [reflexivity|]. intros H. destruct (ident_eq_dec x y) as [->|]; [tauto|apply IH; tauto].
Qed.
Lemma scope_app ls e : Forall (fun b => marked (fst b)) ls -> scope_of (ls ++ e) = scope_of e.
Proof. induction 1 as [|[x v] ls Hx H IH]; [reflexivity|]. change (((x, v) :: ls) ++ e) with ((x, v) :: (ls ++ e)). rewrite scope_cons; auto. Qed.
Lemma lookup_var n e : lookup (Id n []) e = var (scope_of e) n.
Proof.
  induction e as [|[[y m] v] e IH]; [reflexivity|]. rewrite scope_of_cons. cbn [lookup id_mark id_name]. destruct m as [|k m]; cbn [app var].
  - destruct (ident_eq_dec (Id n []) (Id y [])) as [H|H]; destruct (list_eq_dec N.eq_dec n y) as [H'|H']; try congruence; auto.
  - destruct (ident_eq_dec (Id n []) (Id y (k :: m))); [congruence|exact IH].
Qed.
Lemma scope_caller s : scope_of (map (fun b => (Id (fst b) [], snd b)) s) = s.
Proof. induction s as [|[n v] s IH]; [reflexivity|]. cbn [map fst snd]. rewrite scope_of_cons, IH. reflexivity. Qed.

(** ** Freshness: [x] was not written in the expansion [m] or one below it *)
Definition fresh (m : mark) (x : ident) : Prop := forall l, id_mark x <> l ++ m.
Lemma fresh_cons m j x : fresh m x -> fresh (j :: m) x.
Proof. intros H l E. apply (H (l ++ [j])). now rewrite <- app_assoc. Qed.
Lemma fresh_self n m j : fresh (j :: m) (Id n m).
Proof. intros l E. apply (f_equal (@length nat)) in E. cbn in E. rewrite app_length in E. cbn in E. lia. Qed.
Lemma fresh_ne m n x : fresh m x -> x <> Id n m.
Proof. intros H ->. now apply (H []). Qed.

(** ** Runs *)
Definition tracks (tr : list (ident * val)) (e : frame) : Prop := forall x v, In (x, v) tr -> lookup x e = Some v.
(** [out] is the frame that [e] becomes, if [o] is what the variables in [M] become: new variables may have come, other than those
    in [V]; of the old ones only those in [M] have changed *)
Definition goes (M V : ident -> Prop) (e : frame) (out : outcome frame) (o : outcome (list (ident * val))) : Prop :=
  match o with
  | Done tr => exists ls e0, out = Done (ls ++ e0) /\ sb M e e0 /\ Forall (fun b => marked (fst b) /\ ~ V (fst b)) ls /\ tracks tr (ls ++ e0)
  | NoReturn => out = NoReturn
  | Panicked => out = Panicked
  | Rejected => True
  end.

Lemma goes_frame (M V : ident -> Prop) e tr out : (forall x, M x -> V x) -> (forall x, M x -> marked x) -> goes M V e out (Done tr) ->
  exists e', out = Done e' /\ tracks tr e' /\ scope_of e' = scope_of e /\ (forall x, V x -> ~ M x -> lookup x e' = lookup x e).
Proof.
  intros HMV HMm (ls & e0 & -> & Hs & Hq & Ht). exists (ls ++ e0). split; auto. split; auto. split.
  - rewrite scope_app; [now apply (sb_scope M)|]. eapply Forall_impl; [|exact Hq]. cbn. tauto.
  - intros x Hx Hm. rewrite lookup_app_skip; [now apply (sb_lookup M)|]. intros Hi. apply in_map_iff in Hi as ([y v] & <- & Hi).
    rewrite Forall_forall in Hq. now apply Hq in Hi.
Qed.
Lemma goes_bind (M V : ident -> Prop) e out o k f : (forall x, M x -> V x) -> (forall x, M x -> marked x) -> goes M V e out o ->
  (forall tr e1, o = Done tr -> out = Done e1 -> tracks tr e1 -> scope_of e1 = scope_of e -> (forall x, V x -> ~ M x -> lookup x e1 = lookup x e) ->
     goes M V e1 (k e1) (f tr)) ->
  goes M V e (obind out k) (obind o f).
Proof.
  intros HMV HMm H Hk. destruct o as [tr| | |]; cbn [obind goes] in *; [|rewrite H; reflexivity..|exact I].
  pose proof (goes_frame M V e tr out HMV HMm H) as (e1 & E & Ht & Hsc & Hl). specialize (Hk tr e1 eq_refl E Ht Hsc Hl).
  destruct H as (ls & e0 & -> & Hs & Hq & _). injection E as <-. cbn [obind].
  destruct (f tr) as [tr2| | |]; [|exact Hk..]. destruct Hk as (ls2 & e2 & E2 & Hs2 & Hq2 & Ht2). rewrite E2.
  apply sb_app in Hs2 as (f1 & f2 & -> & Hf & Hs2). exists (ls2 ++ f1), f2. rewrite <- app_assoc. split; auto. split; [|split; auto].
  - apply (sb_trans M e e0); auto. eapply sb_mono; [|exact Hs2]. cbn. tauto.
  - apply Forall_app. split; auto. apply Forall_forall. intros [x v] Hi. cbn.
    assert (Hx : In x (map fst ls)). { rewrite <- Hf. apply in_map_iff. now exists (x, v). }
    apply in_map_iff in Hx as ([y w] & <- & Hy). rewrite Forall_forall in Hq. exact (Hq _ Hy).
Qed.
Lemma goes_done (M V : ident -> Prop) e tr : tracks tr e -> goes M V e (Done e) (Done tr).
Proof. intros H. exists [], e. split; auto. split; [apply sb_refl|]. split; auto. Qed.
Lemma goes_sb (M V : ident -> Prop) e e' tr : sb M e e' -> tracks tr e' -> goes M V e (Done e') (Done tr).
Proof. intros Hs H. exists [], e'. split; auto. Qed.
Lemma goes_mono (M M' V V' : ident -> Prop) e out o : (forall x, M x -> M' x) -> (forall x, V' x -> V x) -> goes M V e out o -> goes M' V' e out o.
Proof.
  intros HM HV. destruct o as [tr| | |]; cbn [goes]; auto. intros (ls & e0 & -> & Hs & Hq & Ht). exists ls, e0. split; auto.
  split; [eapply sb_mono; eauto|]. split; auto. eapply Forall_impl; [|exact Hq]. cbn. intuition.
Qed.
(** one run after another, of which the first changes less *)
Lemma goes_then (M0 V0 M V : ident -> Prop) e out tr k o :
  (forall x, M0 x -> M x) -> (forall x, V x -> V0 x) -> (forall x, M0 x -> V0 x) -> (forall x, M x -> V x) -> (forall x, M x -> marked x) ->
  goes M0 V0 e out (Done tr) ->
  (forall e1, tracks tr e1 -> scope_of e1 = scope_of e -> (forall x, V0 x -> ~ M0 x -> lookup x e1 = lookup x e) -> goes M V e1 (k e1) o) ->
  goes M V e (obind out k) o.
Proof.
  intros HM HV HMV0 HMV HMm H Hk.
  destruct (goes_frame M0 V0 e tr out HMV0 (fun x Hx => HMm x (HM x Hx)) H) as (e1 & E1 & Ht1 & Hs1 & Hl1).
  change (goes M V e (obind out k) (obind (Done tr) (fun _ => o))). apply goes_bind; auto.
  - eapply goes_mono; [exact HM|exact HV|exact H].
  - intros tr' e2 _ E2 _ _ _. rewrite E1 in E2. injection E2 as <-. apply Hk; auto.
Qed.
(** less is tracked *)
Lemma goes_less (M V : ident -> Prop) e out o o' : (forall tr, o = Done tr -> exists tr', o' = Done tr' /\ incl tr' tr) ->
  (o = NoReturn -> o' = NoReturn) -> (o = Panicked -> o' = Panicked) -> (o = Rejected -> o' = Rejected) -> goes M V e out o -> goes M V e out o'.
Proof.
  intros H1 H2 H3 H4 H. destruct o as [tr| | |].
  - destruct (H1 tr eq_refl) as (tr' & -> & Hi). destruct H as (ls & e0 & -> & Hs & Hq & Ht). exists ls, e0. split; auto. split; auto. split; auto.
    intros x v Hx. apply Ht. now apply Hi.
  - now rewrite (H2 eq_refl).
  - now rewrite (H3 eq_refl).
  - now rewrite (H4 eq_refl).
Qed.
(** a new variable *)
Lemma goes_let (M V : ident -> Prop) x v e out o : marked x -> ~ V x -> (forall y, M y -> V y) ->
  goes (fun y => y = x \/ M y) (fun y => y = x \/ V y) ((x, v) :: e) out o -> goes M V e out o.
Proof.
  intros Hm Hv HMV H. destruct o as [tr| | |]; auto. destruct H as (ls & e0 & -> & Hs & Hq & Ht). inversion Hs; subst.
  exists (ls ++ [(x, v')]), e'. rewrite <- app_assoc. split; auto. split; [|split].
  - eapply sb_mono; [|eassumption]. cbn. intuition.
  - apply Forall_app. split; [eapply Forall_impl; [|exact Hq]; cbn; tauto|]. repeat constructor; auto.
  - exact Ht.
Qed.
(** the end of a block *)
Lemma goes_leave (M V : ident -> Prop) e out o : (forall x tr v, o = Done tr -> In (x, v) tr -> V x) ->
  goes M V e out o -> goes M V e (obind out (fun e1 => Done (leave e e1))) o.
Proof.
  intros HV H. destruct o as [tr| | |]; cbn [goes] in *; [|rewrite H; reflexivity..|exact I].
  destruct H as (ls & e0 & -> & Hs & Hq & Ht). cbn [obind]. exists [], e0. split.
  - unfold leave. rewrite app_length, (sb_length _ _ _ Hs). replace (length ls + length e - length e) with (length ls) by lia.
    rewrite skipn_app, skipn_all, Nat.sub_diag. reflexivity.
  - split; auto. split; auto. cbn. intros x v Hx. rewrite <- (Ht x v Hx). symmetry. apply lookup_app_skip. intros Hi.
    apply in_map_iff in Hi as ([y w] & E & Hi). cbn in E. subst y. rewrite Forall_forall in Hq. apply Hq in Hi as [_ Hn]. eauto.
Qed.

Lemma run_all_app run l1 l2 e : run_all run (l1 ++ l2) e = obind (run_all run l1 e) (run_all run l2).
Proof.
  revert e. induction l1 as [|s l1 IH]; intros e; [reflexivity|]. cbn. destruct (run s e); cbn; auto.
Qed.
Lemma run_all_cons run s l e : run_all run (s :: l) e = obind (run s e) (run_all run l).
Proof. reflexivity. Qed.
Lemma obind_assoc {A B C} (x : outcome A) (f : A -> outcome B) (g : B -> outcome C) : obind (obind x f) g = obind x (fun a => obind (f a) g).
Proof. now destruct x. Qed.
Lemma obind_done {A} (x : outcome A) : obind x Done = x.
Proof. now destruct x. Qed.
