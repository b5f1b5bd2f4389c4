(** Moves in the code of describe_api! (C87): variables, and the parts of sections. *)
From Coq Require Import List NArith Bool PeanoNat Lia.
From Verif Require Import Str Api Expand ExpandFacts ExpandFacts2 Moves MovesSpec.
Import ListNotations.

(** ** Variables *)
Definition ids (st : slots) : list ident := map sl_id st.
Definition callers (st : slots) : slots := filter (fun s => match id_mark (sl_id s) with [] => true | _ => false end) st.
Definition alive (y : ident) (st : slots) : Prop := borrow y st = Some st.
Definition keeps_id (f : slot -> option slot) : Prop := forall s s', f s = Some s' -> sl_id s' = sl_id s.

Lemma borrow_id : keeps_id (fun s => if sl_live s then Some s else None).
Proof. intros s s'. destruct (sl_live s); [|discriminate]. now intros [= <-]. Qed.
Lemma take_id : keeps_id (fun s => if sl_live s then Some {| sl_id := sl_id s; sl_live := sl_copy s; sl_copy := sl_copy s |} else None).
Proof. intros s s'. destruct (sl_live s); [|discriminate]. now intros [= <-]. Qed.
Lemma assign_id : keeps_id (fun s => Some {| sl_id := sl_id s; sl_live := true; sl_copy := sl_copy s |}).
Proof. intros s s'. now intros [= <-]. Qed.

Lemma on_var_ids f x st st' : keeps_id f -> on_var f x st = Some st' -> ids st' = ids st.
Proof.
  intros Hf. revert st'. induction st as [|s st IH]; cbn; [discriminate|]. intros st' H. destruct (ident_eq_dec x (sl_id s)).
  - destruct (f s) as [s'|] eqn:E; [|discriminate]. injection H as <-. cbn. f_equal. eauto.
  - destruct (on_var f x st) as [st1|] eqn:E; [|discriminate]. injection H as <-. cbn. f_equal. now apply IH.
Qed.
Lemma on_var_app f x ls st : ~ In x (ids ls) -> on_var f x (ls ++ st) = option_map (app ls) (on_var f x st).
Proof.
  induction ls as [|s ls IH]; cbn; intros H; [now destruct (on_var f x st)|]. destruct (ident_eq_dec x (sl_id s)) as [->|]; [tauto|].
  rewrite IH by tauto. now destruct (on_var f x st).
Qed.
Lemma callers_ids_marked s st : marked (sl_id s) -> callers (s :: st) = callers st.
Proof. unfold marked, callers. cbn. destruct (id_mark (sl_id s)); [contradiction|reflexivity]. Qed.
Lemma callers_unmarked s st : id_mark (sl_id s) = [] -> callers (s :: st) = s :: callers st.
Proof. unfold callers. cbn. now intros ->. Qed.
Lemma mark_cases x : id_mark x = [] \/ marked x.
Proof. unfold marked. destruct (id_mark x); [now left|right; discriminate]. Qed.
Lemma callers_app ls st : (forall y, In y (ids ls) -> marked y) -> callers (ls ++ st) = callers st.
Proof. induction ls as [|s ls IH]; intros H; [reflexivity|]. cbn [app]. rewrite callers_ids_marked by (apply H; now left). apply IH. intros y Hy. apply H. now right. Qed.
Lemma on_var_marked f x st st' : keeps_id f -> marked x -> on_var f x st = Some st' -> callers st' = callers st.
Proof.
  intros Hf Hx. revert st'. induction st as [|s st IH]; cbn [on_var]; [discriminate|]. intros st' H. destruct (ident_eq_dec x (sl_id s)) as [->|].
  - destruct (f s) as [s'|] eqn:E; [|discriminate]. injection H as <-. pose proof (Hf _ _ E) as Hi. rewrite !callers_ids_marked; congruence.
  - destruct (on_var f x st) as [st1|] eqn:E; [|discriminate]. injection H as <-. specialize (IH _ eq_refl).
    destruct (mark_cases (sl_id s)); [rewrite !callers_unmarked by auto; congruence|now rewrite !callers_ids_marked by auto].
Qed.
Lemma on_var_callers f x st : keeps_id f -> id_mark x = [] -> on_var f x (callers st) = option_map callers (on_var f x st).
Proof.
  intros Hf Hx. induction st as [|s st IH]; [reflexivity|]. destruct (mark_cases (sl_id s)) as [Hs|Hs].
  - rewrite callers_unmarked by auto. cbn [on_var]. destruct (ident_eq_dec x (sl_id s)).
    + destruct (f s) as [s'|] eqn:E; [|reflexivity]. cbn [option_map]. rewrite callers_unmarked; [reflexivity|]. now rewrite (Hf _ _ E).
    + rewrite IH. destruct (on_var f x st); [|reflexivity]. cbn [option_map]. now rewrite callers_unmarked by auto.
  - rewrite callers_ids_marked by auto. cbn [on_var]. destruct (ident_eq_dec x (sl_id s)) as [->|]; [unfold marked in Hs; congruence|].
    rewrite IH. destruct (on_var f x st); [|reflexivity]. cbn [option_map]. now rewrite callers_ids_marked by auto.
Qed.
Lemma on_var_none f x st st' : ids st' = ids st -> (forall s, f s <> None) -> on_var f x st <> None -> on_var f x st' <> None.
Proof.
  revert st'. induction st as [|s st IH]; intros [|s' st'] He Hf; cbn in *; try discriminate; auto. injection He as E1 E2. rewrite E1.
  destruct (ident_eq_dec x (sl_id s)); [specialize (Hf s'); destruct (f s'); [discriminate|contradiction]|].
  specialize (IH _ E2 Hf). destruct (on_var f x st), (on_var f x st'); try discriminate; intros H; try (exfalso; now apply H); auto; apply IH; discriminate.
Qed.

Lemma borrow_same y st st' : borrow y st = Some st' -> st' = st.
Proof.
  revert st'. induction st as [|s st IH]; cbn; [discriminate|]. intros st'. destruct (ident_eq_dec y (sl_id s)).
  - destruct (sl_live s); [|discriminate]. now intros [= <-].
  - fold borrow. destruct (borrow y st) as [st1|]; [|discriminate]. intros [= <-]. now rewrite (IH _ eq_refl).
Qed.
Lemma alive_cons y s st : alive y (s :: st) <-> (if ident_eq_dec y (sl_id s) then sl_live s = true else alive y st).
Proof.
  unfold alive, borrow. cbn [on_var]. fold borrow. destruct (ident_eq_dec y (sl_id s)).
  - destruct (sl_live s); cbn; [tauto|]. split; discriminate.
  - destruct (borrow y st) as [st1|] eqn:E; cbn; [|split; discriminate]. rewrite (borrow_same _ _ _ E). tauto.
Qed.
Lemma alive_app y ls st : ~ In y (ids ls) -> alive y (ls ++ st) <-> alive y st.
Proof. intros H. induction ls as [|s ls IH]; [reflexivity|]. cbn in H. cbn [app]. rewrite alive_cons. destruct (ident_eq_dec y (sl_id s)) as [->|]; [tauto|apply IH; tauto]. Qed.
Lemma on_var_alive f x y st st' : keeps_id f -> on_var f x st = Some st' -> x <> y -> alive y st -> alive y st'.
Proof.
  intros Hf. revert st'. induction st as [|s st IH]; cbn [on_var]; [discriminate|]. intros st' H Hne Ha. apply alive_cons in Ha. destruct (ident_eq_dec x (sl_id s)) as [->|].
  - destruct (f s) as [s'|] eqn:E; [|discriminate]. injection H as <-. apply alive_cons. rewrite (Hf _ _ E). destruct (ident_eq_dec y (sl_id s)); [congruence|exact Ha].
  - destruct (on_var f x st) as [st1|]; [|discriminate]. injection H as <-. apply alive_cons. destruct (ident_eq_dec y (sl_id s)); auto.
Qed.
Lemma alive_take y st : alive y st -> exists st', take_value y st = Some st'.
Proof.
  induction st as [|s st IH]; [discriminate|]. intros H. apply alive_cons in H. unfold take_value in *. cbn [on_var]. destruct (ident_eq_dec y (sl_id s)).
  - rewrite H. cbn. eauto.
  - destruct (IH H) as [st' ->]. cbn. eauto.
Qed.
Lemma alive_assign y st : alive y st -> exists st', assign_value y st = Some st' /\ alive y st'.
Proof.
  induction st as [|s st IH]; [discriminate|]. intros H. apply alive_cons in H. unfold assign_value in *. cbn [on_var]. destruct (ident_eq_dec y (sl_id s)) as [E|E].
  - cbn. eexists. split; [reflexivity|]. apply alive_cons. cbn. destruct (ident_eq_dec y (sl_id s)); [reflexivity|contradiction].
  - destruct (IH H) as (st' & -> & Ha). cbn. eexists. split; [reflexivity|]. apply alive_cons. destruct (ident_eq_dec y (sl_id s)); [contradiction|exact Ha].
Qed.

(** ** Joining *)
Lemma join_self st : join st st = st.
Proof. unfold join. induction st as [|[i l c] st IH]; cbn; [reflexivity|]. rewrite IH. now rewrite andb_diag. Qed.
Lemma join_cons s a t b : join (s :: a) (t :: b) = {| sl_id := sl_id s; sl_live := sl_live s && sl_live t; sl_copy := sl_copy s |} :: join a b.
Proof. reflexivity. Qed.
Lemma join_ids a b : ids a = ids b -> ids (join a b) = ids a.
Proof. revert b. induction a as [|s a IH]; intros [|t b] H; try discriminate; [reflexivity|]. injection H as H1 H2. rewrite join_cons. cbn. f_equal. now apply IH. Qed.
Lemma join_callers a b : ids a = ids b -> callers (join a b) = join (callers a) (callers b).
Proof.
  revert b. induction a as [|s a IH]; intros [|t b] H; try discriminate; [reflexivity|]. injection H as H1 H2. rewrite join_cons.
  destruct (mark_cases (sl_id s)) as [Hs|Hs].
  - rewrite !callers_unmarked by (cbn; congruence). rewrite IH by auto. reflexivity.
  - rewrite !callers_ids_marked by (cbn; congruence). now apply IH.
Qed.
Lemma join_alive y a b : ids a = ids b -> alive y a -> alive y b -> alive y (join a b).
Proof.
  revert b. induction a as [|s a IH]; intros [|t b] H; try discriminate; auto. injection H as H1 H2. rewrite join_cons, !alive_cons. cbn. rewrite <- H1.
  destruct (ident_eq_dec y (sl_id s)); [intros -> ->; reflexivity|]. now apply IH.
Qed.

(** ** Flows: the code uses the caller's variables as [us] says, leaves those in [K] usable, and declares none of them *)
Definition keeps (K : ident -> Prop) (st : slots) : Prop := forall y, K y -> marked y /\ alive y st.
Definition flows (K : ident -> Prop) (st : slots) (out : option slots) (us : list use) : Prop :=
  match use_all us (callers st) with
  | None => out = None
  | Some cs => exists ls st', out = Some (ls ++ st') /\ ids st' = ids st /\ callers st' = cs /\ keeps K st' /\
                 (forall y, In y (ids ls) -> marked y /\ ~ K y)
  end.

Lemma use_all_app l1 l2 st : use_all (l1 ++ l2) st = obnd (use_all l1 st) (use_all l2).
Proof. revert st. induction l1 as [|w l1 IH]; intros st; [reflexivity|]. cbn. destruct (use_var w st); [apply IH|reflexivity]. Qed.
Lemma flows_weaken (K K' : ident -> Prop) st o us : (forall y, K' y -> K y) -> flows K st o us -> flows K' st o us.
Proof.
  unfold flows. intros HK H. destruct (use_all us (callers st)) as [cs|]; auto. destruct H as (ls & st' & -> & Hi & Hc & Hk & Hl).
  exists ls, st'. split; [reflexivity|]. split; [exact Hi|]. split; [exact Hc|]. split; [intros y Hy; apply Hk; auto|].
  intros y Hy. destruct (Hl y Hy) as [H1 H2]. split; auto.
Qed.
Lemma flows_then (K K' : ident -> Prop) st o f us1 us2 : (forall y, K y -> K' y) -> flows K' st o us1 -> (forall st1, keeps K' st1 -> flows K st1 (f st1) us2) -> flows K st (obnd o f) (us1 ++ us2).
Proof.
  intros HK. unfold flows at 1 3. rewrite use_all_app. intros H Hf. destruct (use_all us1 (callers st)) as [cs|]; cbn [obnd]; [|now rewrite H].
  destruct H as (ls & st' & -> & Hi & Hc & Hk & Hl). cbn [obnd].
  assert (Hk' : keeps K' (ls ++ st')).
  { intros y Hy. destruct (Hk y Hy). split; auto. apply alive_app; auto. intros Hin. now apply (Hl y). }
  specialize (Hf _ Hk'). unfold flows in Hf. rewrite callers_app, Hc in Hf by (intros; now apply Hl).
  destruct (use_all us2 cs) as [cs2|]; auto. destruct Hf as (ls2 & st2 & -> & Hi2 & Hc2 & Hk2 & Hl2).
  unfold ids in Hi2. rewrite map_app in Hi2.
  assert (exists a b, st2 = a ++ b /\ ids a = ids ls /\ ids b = ids st') as (a & b & -> & Ha & Hb).
  { exists (firstn (length ls) st2), (skipn (length ls) st2). split; [now rewrite firstn_skipn|]. unfold ids. rewrite <- firstn_map, <- skipn_map, Hi2.
    split; [rewrite firstn_app|rewrite skipn_app]; rewrite map_length, Nat.sub_diag; cbn [firstn skipn].
    - now rewrite app_nil_r, firstn_all2 by (rewrite map_length; auto).
    - now rewrite skipn_all2 by (rewrite map_length; auto). }
  exists (ls2 ++ a), b. rewrite app_assoc. split; auto. split; [congruence|]. split; [|split].
  - rewrite <- Hc2, callers_app; auto. intros y Hy. rewrite Ha in Hy. now apply Hl.
  - intros y Hy. destruct (Hk2 y Hy) as [Hm Hal]. split; auto. apply alive_app in Hal; auto. intros Hin. rewrite Ha in Hin. apply (Hl y); auto.
  - intros y Hy. unfold ids in Hy. rewrite map_app in Hy. apply in_app_or in Hy as [Hy|Hy]; [now apply Hl2|]. fold (ids a) in Hy. rewrite Ha in Hy.
    destruct (Hl y Hy). auto.
Qed.
Lemma flows_seq K st o f us1 us2 : flows K st o us1 -> (forall st1, keeps K st1 -> flows K st1 (f st1) us2) -> flows K st (obnd o f) (us1 ++ us2).
Proof. now apply flows_then. Qed.
Lemma flows_seq0 K st o f us : flows K st o [] -> (forall st1, keeps K st1 -> flows K st1 (f st1) us) -> flows K st (obnd o f) us.
Proof. apply (flows_seq K st o f []). Qed.
Lemma flows_seq1 K st o f us : flows K st o us -> (forall st1, keeps K st1 -> flows K st1 (f st1) []) -> flows K st (obnd o f) us.
Proof. intros H1 H2. rewrite <- (app_nil_r us). now apply flows_seq. Qed.
Lemma flows_new (K : ident -> Prop) s st o us : marked (sl_id s) -> ~ K (sl_id s) -> flows K (s :: st) o us -> flows K st o us.
Proof.
  unfold flows. intros Hm Hk H. rewrite callers_ids_marked in H by auto. destruct (use_all us (callers st)) as [cs|]; auto.
  destruct H as (ls & st' & -> & Hi & Hc & Hk' & Hl). destruct st' as [|s' st']; [discriminate|]. injection Hi as Hs Hi.
  exists (ls ++ [s']), st'. rewrite <- app_assoc. split; auto. split; auto. split; [|split].
  - now rewrite callers_ids_marked in Hc by congruence.
  - intros y Hy. destruct (Hk' y Hy) as [Hy1 Hy2]. split; auto. apply alive_cons in Hy2. destruct (ident_eq_dec y (sl_id s')); [congruence|auto].
  - intros y Hy. unfold ids in Hy. rewrite map_app in Hy. apply in_app_or in Hy as [Hy|[<-|[]]]; [now apply Hl|]. rewrite Hs. auto.
Qed.
Lemma leave_app st ls st' : ids st' = ids st -> leave_slots st (ls ++ st') = st'.
Proof.
  intros H. unfold leave_slots. assert (E : length st' = length st) by (unfold ids in H; apply (f_equal (@length _)) in H; now rewrite !map_length in H).
  rewrite app_length, E. replace (length ls + length st - length st) with (length ls) by lia. rewrite skipn_app, skipn_all, Nat.sub_diag. reflexivity.
Qed.
Lemma flows_leave K st o us : flows K st o us -> flows K st (obnd o (fun s => Some (leave_slots st s))) us.
Proof.
  unfold flows. intros H. destruct (use_all us (callers st)) as [cs|]; [|now rewrite H]. destruct H as (ls & st' & -> & Hi & Hc & Hk & Hl).
  exists [], st'. cbn [obnd app]. rewrite leave_app by auto. split; [reflexivity|]. split; [exact Hi|]. split; [exact Hc|]. split; [exact Hk|contradiction].
Qed.
Lemma flows_same K st : keeps K st -> flows K st (Some st) [].
Proof. intros H. exists [], st. split; [reflexivity|]. split; [reflexivity|]. split; [reflexivity|]. split; [exact H|contradiction]. Qed.
Lemma flows_borrow (K : ident -> Prop) y st : K y -> keeps K st -> flows K st (borrow y st) [].
Proof. intros Hy Hk. destruct (Hk y Hy) as [_ ->]. now apply flows_same. Qed.
Lemma flows_on_var (K : ident -> Prop) f y st st' : keeps_id f -> marked y -> on_var f y st = Some st' -> (K y -> alive y st') -> keeps K st -> flows K st (Some st') [].
Proof.
  intros Hf Hm H Hy Hk. exists [], st'. split; [reflexivity|]. split; [eapply on_var_ids; eauto|]. split; [eapply on_var_marked; eauto|]. split; [|contradiction].
  intros z Hz. destruct (Hk z Hz) as [Hz1 Hz2]. split; auto. destruct (ident_eq_dec y z) as [<-|Hne]; auto. eapply on_var_alive; eauto.
Qed.
Lemma flows_take (K : ident -> Prop) y st : marked y -> alive y st -> ~ K y -> keeps K st -> flows K st (take_value y st) [].
Proof. intros Hm Ha Hn Hk. destruct (alive_take _ _ Ha) as [st' E]. rewrite E. eapply flows_on_var; [apply take_id|exact Hm|exact E|contradiction|auto]. Qed.
Lemma flows_assign (K : ident -> Prop) y st : K y -> keeps K st -> flows K st (assign_value y st) [].
Proof. intros Hy Hk. destruct (Hk y Hy) as [Hm Ha]. destruct (alive_assign _ _ Ha) as (st' & E & Ha'). rewrite E. eapply flows_on_var; [apply assign_id|exact Hm|exact E|auto|auto]. Qed.
Lemma flows_use K w st : keeps K st -> flows K st (use_var w st) [w].
Proof.
  intros Hk. unfold flows. cbn [use_all].
  assert (G : forall f x, keeps_id f -> id_mark x = [] -> match obnd (on_var f x (callers st)) (use_all []) with
     | None => on_var f x st = None
     | Some cs => exists ls st', on_var f x st = Some (ls ++ st') /\ ids st' = ids st /\ callers st' = cs /\ keeps K st' /\ (forall y, In y (ids ls) -> marked y /\ ~ K y)
     end).
  { intros f x Hf Hx. rewrite on_var_callers by auto. destruct (on_var f x st) as [st'|] eqn:E; cbn; auto. exists [], st'. split; auto.
    split; [eapply on_var_ids; eauto|]. split; auto. split; [|contradiction]. intros y Hy. destruct (Hk y Hy) as [Hm Ha]. split; auto.
    eapply on_var_alive; eauto. intros <-. unfold marked in Hm. congruence. }
  destruct w; [apply (G _ (Id x []) borrow_id)|apply (G _ (Id x []) take_id)]; reflexivity.
Qed.
Lemma flows_uses K us st : keeps K st -> flows K st (use_all us st) us.
Proof.
  revert st. induction us as [|w us IH]; intros st Hk; [now apply flows_same|]. cbn [use_all]. apply (flows_seq K st _ _ [w] us); [now apply flows_use|]. auto.
Qed.
Lemma flows_join K st s1 s2 : flows K st (Some s1) [] -> flows K st (Some s2) [] -> length s1 = length st -> length s2 = length st -> flows K st (Some (join s1 s2)) [].
Proof.
  intros (l1 & t1 & [= ->] & Hi1 & Hc1 & Hk1 & _) (l2 & t2 & [= ->] & Hi2 & Hc2 & Hk2 & _) L1 L2.
  assert (E : forall t, ids t = ids st -> length t = length st) by (intros t H; unfold ids in H; apply (f_equal (@length _)) in H; now rewrite !map_length in H).
  rewrite app_length, (E t1) in L1 by auto. rewrite app_length, (E t2) in L2 by auto. destruct l1; [|cbn in L1; lia]. destruct l2; [|cbn in L2; lia]. cbn [app] in *.
  exists [], (join t1 t2). split; [reflexivity|]. split; [rewrite join_ids; congruence|]. split; [rewrite join_callers by congruence; rewrite Hc1, Hc2; apply join_self|].
  split; [|contradiction]. intros y Hy. destruct (Hk1 y Hy), (Hk2 y Hy). split; auto. apply join_alive; auto. congruence.
Qed.
