(** Facts about describe_api!: what a successful run gives. *)
From Verif Require Import ApiSpec SerFacts SerFacts2 SerFacts3 SerFacts4.
Local Open Scope string_scope. Local Open Scope list_scope.

(** ** Url templates *)
Definition nonempty {A} (l : list A) : bool := match l with [] => false | _ => true end.
Definition prepend (c : list tree) (gs : list (list tree)) : list (list tree) := match gs with g :: gs' => (c ++ g) :: gs' | [] => [c] end.
Fixpoint texts (gs : list (list utok)) : option (list (list tree)) :=
  match gs with
  | [] => Some []
  | g :: gs' => match group_text g, texts gs' with Some t, Some ts => Some (t :: ts) | _, _ => None end
  end.
Lemma group_text_map c : group_text (map UTok c) = Some c.
Proof. induction c as [|s c IH]; [reflexivity|]. cbn. now rewrite IH. Qed.
Lemma split_url_nonempty l : split_url l <> [].
Proof. destruct l as [|[|s] l]; cbn; try discriminate. destruct (split_url l); discriminate. Qed.
Lemma munch_head r : forall cur gs, munch r cur = Some gs -> forall x cur', cur = x :: cur' -> exists y gs', gs = (x :: y) :: gs'.
Proof.
  induction r as [|t r IH]; intros cur gs H x cur' ->.
  - injection H as <-. eauto.
  - destruct t as [|s]; cbn in H.
    + destruct (munch r []) as [l|]; [|discriminate]. injection H as <-. eauto.
    + eapply IH; [exact H|reflexivity].
Qed.
Lemma munch_texts r : forall c,
  match munch r (map UTok c) with Some gs => texts gs | None => None end =
  if forallb nonempty (prepend c (split_url r)) then Some (prepend c (split_url r)) else None.
Proof.
  induction r as [|t r IH]; intros c.
  - destruct c as [|s c]; [reflexivity|]. cbn. rewrite group_text_map, app_nil_r. reflexivity.
  - destruct t as [|s].
    + cbn [split_url prepend]. rewrite app_nil_r. destruct c as [|s c].
      * cbn [forallb nonempty andb]. cbn [munch map app].
        destruct (munch r [USlash]) as [gs|] eqn:Em; [|reflexivity].
        destruct (munch_head _ _ _ Em _ _ eq_refl) as (y & gs' & ->). reflexivity.
      * cbn [munch map]. specialize (IH []). cbn [map] in IH. change (UTok s :: map UTok c) with (map UTok (s :: c)).
        assert (Ep : prepend [] (split_url r) = split_url r) by (destruct (split_url r) eqn:E; [now apply split_url_nonempty in E|reflexivity]).
        rewrite Ep in IH. cbn [forallb nonempty andb].
        destruct (munch r []) as [gs|].
        -- cbn [texts]. rewrite group_text_map, IH. destruct (forallb nonempty (split_url r)); reflexivity.
        -- destruct (forallb nonempty (split_url r)); [discriminate|reflexivity].
    + assert (Em : munch (UTok s :: r) (map UTok c) = munch r (map UTok (c ++ [s]))) by (rewrite map_app; destruct c; reflexivity).
      rewrite Em, IH. cbn [split_url].
      destruct (split_url r) as [|g gs] eqn:E; [now apply split_url_nonempty in E|].
      cbn [prepend]. rewrite <- app_assoc. reflexivity.
Qed.
Lemma munch_split url :
  match munch url [] with Some gs => texts gs | None => None end = if forallb nonempty (split_url url) then Some (split_url url) else None.
Proof.
  pose proof (munch_texts url []) as H. cbn [map] in H.
  assert (Ep : prepend [] (split_url url) = split_url url) by (destruct (split_url url) eqn:E; [now apply split_url_nonempty in E|reflexivity]).
  now rewrite Ep in H.
Qed.
Lemma split_join gs : gs <> [] -> split_url (join_url gs) = gs.
Proof.
  assert (Ha : forall g l, split_url (map UTok g ++ l) = prepend g (split_url l)).
  { induction g as [|s g IH]; intros l; cbn [map app split_url].
    - destruct (split_url l) eqn:E; [now apply split_url_nonempty in E|reflexivity].
    - rewrite IH. destruct (split_url l) eqn:E; [now apply split_url_nonempty in E|]. reflexivity. }
  induction gs as [|g gs IH]; [congruence|]. intros _. destruct gs as [|g' gs].
  - cbn [join_url]. rewrite <- (app_nil_r (map UTok g)), Ha. cbn. now rewrite app_nil_r.
  - change (join_url (g :: g' :: gs)) with (map UTok g ++ USlash :: join_url (g' :: gs)). rewrite Ha. cbn [split_url prepend].
    rewrite IH by discriminate. now rewrite app_nil_r.
Qed.
Lemma join_split l : join_url (split_url l) = l.
Proof.
  induction l as [|[|s] l IH]; [reflexivity| |].
  - cbn [split_url]. destruct (split_url l) as [|g gs] eqn:E; [now apply split_url_nonempty in E|].
    change (join_url ([] :: g :: gs)) with (USlash :: join_url (g :: gs)). now rewrite IH.
  - cbn [split_url]. destruct (split_url l) as [|g gs] eqn:E; [now apply split_url_nonempty in E|].
    destruct gs as [|g' gs]; cbn [join_url map app] in *; now rewrite IH.
Qed.

(** ** Parameter names of types *)
Lemma after_last_colon_Some s r : after_last_colon s = Some r -> ~ In COLON r /\ exists b, s = b ++ COLON :: r.
Proof.
  revert r. induction s as [|c s IH]; cbn; intros r; [discriminate|].
  destruct (after_last_colon s) as [r'|] eqn:E.
  - intros [= <-]. destruct (IH _ eq_refl) as [H (b & ->)]. split; [exact H|]. now exists (c :: b).
  - destruct (N.eqb_spec c 58) as [->|_]; [|discriminate]. intros [= <-]. split; [|now exists []].
    clear IH. induction s as [|c s IH]; [intros []|]. cbn in E. destruct (after_last_colon s) eqn:E'; [discriminate|].
    destruct (N.eqb_spec c 58) as [->|Hn]; [discriminate|]. intros [H|H]; [now apply Hn|]. now apply IH.
Qed.
Lemma after_last_colon_None s : after_last_colon s = None -> ~ In COLON s.
Proof.
  induction s as [|c s IH]; [intros _ []|]. cbn. destruct (after_last_colon s) eqn:E; [discriminate|].
  destruct (N.eqb_spec c 58) as [->|Hn]; [discriminate|]. intros _ [H|H]; [now apply Hn|]. now apply IH.
Qed.
Lemma lower_first_Some s n : lower_first s = Some n -> exists c rest, s = c :: rest /\ (c < 128)%N /\
  ((65 <= c <= 90)%N /\ n = (c + 32)%N :: rest \/ ~ (65 <= c <= 90)%N /\ n = c :: rest).
Proof.
  destruct s as [|c rest]; [discriminate|]. cbn [lower_first]. destruct (N.ltb_spec c 128) as [Hl|]; [|discriminate].
  intros H. exists c, rest. split; [reflexivity|]. split; [exact Hl|]. revert H.
  destruct (N.leb_spec 65 c), (N.leb_spec c 90); cbn [andb]; intros [= <-]; [left|right|right|right]; split; auto; lia.
Qed.
Lemma type_param_name_Some text n : type_param_name text = Some n -> type_parameter text n.
Proof.
  unfold type_param_name. destruct (after_last_colon text) as [r|] eqn:E; intros H; apply lower_first_Some in H;
    destruct H as (c & rest & -> & Hl & Hn).
  - apply after_last_colon_Some in E. destruct E as [Hc (b & ->)]. exists (b ++ [COLON]), c, rest. rewrite <- app_assoc.
    split; [reflexivity|]. split; [exact Hc|]. split; [right; now exists b|]. now split.
  - apply after_last_colon_None in E. exists [], c, rest. split; [reflexivity|]. split; [exact E|]. split; [now left|]. now split.
Qed.
Lemma after_last_colon_app b r : ~ In COLON r -> after_last_colon (b ++ COLON :: r) = Some r.
Proof.
  intros H. assert (Hr : after_last_colon r = None).
  { destruct (after_last_colon r) eqn:E; [|reflexivity]. apply after_last_colon_Some in E. destruct E as [_ (b' & ->)].
    exfalso. apply H. rewrite in_app_iff. right. now left. }
  induction b as [|c b IH]; cbn [app after_last_colon]; [now rewrite Hr|]. now rewrite IH.
Qed.
Lemma type_parameter_name text n : type_parameter text n -> type_param_name text = Some n.
Proof.
  intros (before & c & rest & -> & Hc & Hb & Hl & Hn). unfold type_param_name.
  assert (E : match after_last_colon (before ++ c :: rest) with Some r => r | None => before ++ c :: rest end = c :: rest).
  { destruct Hb as [->|(b & ->)].
    - cbn [app]. destruct (after_last_colon (c :: rest)) as [r|] eqn:E; [|reflexivity]. exfalso.
      apply after_last_colon_Some in E. destruct E as [_ (b & E)]. apply Hc. rewrite E, in_app_iff. right. now left.
    - rewrite <- app_assoc. cbn [app]. now rewrite after_last_colon_app. }
  rewrite E. cbn [lower_first]. apply N.ltb_lt in Hl. rewrite Hl.
  destruct Hn as [[[H1 H2] ->]|[Hn ->]].
  - apply N.leb_le in H1, H2. now rewrite H1, H2.
  - destruct (N.leb_spec 65 c), (N.leb_spec c 90); cbn [andb]; try reflexivity. exfalso. now apply Hn.
Qed.

(** ** Sequences *)
Lemma obind_Done {A B} (x : outcome A) (f : A -> outcome B) b : obind x f = Done b <-> exists a, x = Done a /\ f a = Done b.
Proof. split; [destruct x; try discriminate; cbn; eauto|]. intros (a & -> & H). exact H. Qed.
Inductive steps {X S} (R : X -> S -> S -> Prop) : list X -> S -> S -> Prop :=
| st_nil s : steps R [] s s
| st_cons x l s s1 s2 : R x s s1 -> steps R l s1 s2 -> steps R (x :: l) s s2.
Lemma exec_steps {X S} (f : X -> S -> components -> outcome (S * components)) (R : X -> S -> S -> Prop) l : forall s cx s' cx',
  (forall x, In x l -> forall s cx s' cx', f x s cx = Done (s', cx') -> R x s s') ->
  exec_list f l s cx = Done (s', cx') -> steps R l s s'.
Proof.
  induction l as [|x l IH]; intros s cx s' cx' HR H.
  - cbn in H. injection H as <- _. constructor.
  - cbn in H. apply obind_Done in H. destruct H as ([s1 cx1] & H1 & H2). econstructor; [eapply HR; [now left|exact H1]|].
    eapply IH; [|exact H2]. intros y Hy. apply HR. now right.
Qed.
Lemma steps_mono {X S} (R R' : X -> S -> S -> Prop) l s s' : (forall x s s', In x l -> R x s s' -> R' x s s') -> steps R l s s' -> steps R' l s s'.
Proof.
  intros H Hs. induction Hs; econstructor; [apply H; [now left|eassumption]|]. apply IHHs. intros y a b Hy. apply H. now right.
Qed.

Definition declare_from {K V} `{Ord K} (m : bmap K V) (l : list (K * V)) : bmap K V := fold_left (fun m e => bm_insert (fst e) (snd e) m) l m.
Lemma declare_from_app {K V} `{Ord K} (m : bmap K V) l l' : declare_from m (l ++ l') = declare_from (declare_from m l) l'.
Proof. apply fold_left_app. Qed.
Lemma steps_insert {X K V} `{Ord K} (P : X -> K * V -> Prop) l m m' :
  steps (fun x m m' => exists e, P x e /\ m' = bm_insert (fst e) (snd e) m) l m m' -> exists es, Forall2 P l es /\ m' = declare_from m es.
Proof.
  induction 1 as [m|x l m m1 m' (e & He & ->) _ (es & Hes & ->)]; [exists []; split; [constructor|reflexivity]|].
  exists (e :: es). split; [now constructor|reflexivity].
Qed.
Lemma Forall2_app_inv {A B} (P : A -> B -> Prop) l1 l2 m1 m2 : Forall2 P l1 m1 -> Forall2 P l2 m2 -> Forall2 P (l1 ++ l2) (m1 ++ m2).
Proof. apply Forall2_app. Qed.
Lemma last_or_given {X A} (sel : X -> option A) x l (dflt : A) :
  last_or sel (x :: l) dflt = last_or sel l (match sel x with Some a => a | None => dflt end).
Proof. unfold last_or. cbn [last_of]. now destruct (last_of sel l). Qed.

Ltac last_goal := match goal with |- context [last_of ?f ?l] => destruct (last_of f l) end.
Section Means.
  Variable E : env.
  Variable fuel : nat.
  Variable reason : N -> option str.
  Variable seg : list tree -> option segment.
  Notation refers := (refers E).

  Lemma api_mention_refers t cx r cx' : api_mention E fuel t cx = Done (r, cx') -> refers t r.
  Proof.
    unfold api_mention. destruct (mention E fuel t false params_default cx) as [[r1 cx1]|] eqn:Em; [|discriminate].
    intros [= <- <-]. exists cx, cx1. now exists fuel.
  Qed.

  (** ** Urls *)
  Definition segment_step (s : segment) (st st' : path * bmap str op_parameter) : Prop :=
    (exists e, segment_means s e /\ fst st' = fst st ++ [e]) /\
    (if is_param s then exists e, segment_param E s e /\ snd st' = bm_insert (fst e) (snd e) (snd st) else snd st' = snd st).
  Lemma exec_segment_means s st cx st' cx' : exec_segment E fuel s st cx = Done (st', cx') -> segment_step s st st'.
  Proof.
    destruct st as [p params]. destruct s as [l|text t|n t]; cbn [exec_segment].
    - intros [= <- _]. split; [exists (PePath l); now split|reflexivity].
    - destruct (type_param_name text) as [n|] eqn:En; [|discriminate]. apply type_param_name_Some in En. intros H.
      apply obind_Done in H. destruct H as ([r cx1] & Hm & [= <- _]). apply api_mention_refers in Hm. split.
      + exists (PeParameter n). split; [exists n; now split|reflexivity].
      + exists (n, path_parameter r). split; [|reflexivity]. repeat split. exists r. repeat split; assumption.
    - intros H. apply obind_Done in H. destruct H as ([r cx1] & Hm & [= <- _]). apply api_mention_refers in Hm. split.
      + exists (PeParameter n). split; reflexivity.
      + exists (n, path_parameter r). split; [|reflexivity]. repeat split. exists r. repeat split; assumption.
  Qed.
  Lemma segment_steps segs : forall st st', steps segment_step segs st st' ->
    exists p up, Forall2 segment_means segs p /\ Forall2 (segment_param E) (filter is_param segs) up /\
      fst st' = fst st ++ p /\ snd st' = declare_from (snd st) up.
  Proof.
    intros st st' H. induction H as [st|s l st st1 st' [(e & He & H1) H2] _ (p & up & Hp & Hu & Hf & Hs)].
    - exists [], []. repeat split; try constructor. now rewrite app_nil_r.
    - cbn [filter]. destruct (is_param s).
      + destruct H2 as (a & Ha & H2). exists (e :: p), (a :: up). repeat split.
        * now constructor.
        * now constructor.
        * rewrite Hf, H1, <- app_assoc. reflexivity.
        * rewrite Hs, H2. reflexivity.
      + exists (e :: p), up. repeat split.
        * now constructor.
        * exact Hu.
        * rewrite Hf, H1, <- app_assoc. reflexivity.
        * now rewrite Hs, H2.
  Qed.
  Lemma exec_groups gs : forall st cx st' cx', exec_list (exec_group E fuel seg) gs st cx = Done (st', cx') ->
    exists ts segs, texts gs = Some ts /\ Forall2 (fun g s => seg g = Some s) ts segs /\ exec_list (exec_segment E fuel) segs st cx = Done (st', cx').
  Proof.
    induction gs as [|g gs IH]; intros st cx st' cx' H.
    - exists [], []. repeat split; [constructor|exact H].
    - cbn in H. apply obind_Done in H. destruct H as ([st1 cx1] & H1 & H2). unfold exec_group in H1.
      destruct (group_text g) as [t|] eqn:Eg; [|discriminate]. destruct (seg t) as [s|] eqn:Es; [|discriminate].
      destruct (IH _ _ _ _ H2) as (ts & segs & Ht & Hs & He). exists (t :: ts), (s :: segs). repeat split.
      + cbn. now rewrite Eg, Ht.
      + now constructor.
      + cbn. rewrite H1. exact He.
  Qed.
  Lemma Forall2_and_l {A B} (P : A -> Prop) (Q : A -> B -> Prop) l m : Forall P l -> Forall2 Q l m -> Forall2 (fun a b => P a /\ Q a b) l m.
  Proof. intros Hp Hq. induction Hq; constructor; inversion Hp; subst; auto. Qed.
  Lemma exec_url_means url cx p params cx' : exec_url E fuel seg url cx = Done (p, params, cx') ->
    exists segs up, Forall2 (fun g s => g <> [] /\ seg g = Some s) (split_url url) segs /\ Forall2 segment_means segs p /\
      Forall2 (segment_param E) (filter is_param segs) up /\ params = declare up.
  Proof.
    unfold exec_url. destruct (munch url []) as [gs|] eqn:Em; [|discriminate]. intros H.
    apply exec_groups in H. destruct H as (ts & segs & Ht & Hs & He).
    pose proof (munch_split url) as Hm. rewrite Em, Ht in Hm.
    destruct (forallb nonempty (split_url url)) eqn:En; [|discriminate]. injection Hm as ->.
    apply (exec_steps _ segment_step) in He; [|intros; eapply exec_segment_means; eauto].
    apply segment_steps in He. destruct He as (p' & up & Hp & Hu & Hf & Hd). cbn in Hf, Hd. subst p' params.
    exists segs, up. repeat split; auto. apply Forall2_and_l; [|exact Hs]. apply Forall_forall. intros g Hg.
    rewrite forallb_forall in En. specialize (En g Hg). now destruct g.
  Qed.

  (** ** Parameters *)
  Definition param_prop_step (p : param_prop) (a a' : op_parameter) : Prop :=
    pr_in a' = pr_in a /\
    pr_description a' = (match p with PpDescription s => Some s | _ => pr_description a end) /\
    pr_required a' = (match p with PpRequired b => b | _ => pr_required a end) /\
    pr_deprecated a' = (match p with PpDeprecated b => b | _ => pr_deprecated a end) /\
    (match p with PpSchema t => exists r, pr_schema a' = Some r /\ refers t r | _ => pr_schema a' = pr_schema a end).
  Lemma exec_param_prop_means p a cx a' cx' : exec_param_prop E fuel p a cx = Done (a', cx') -> param_prop_step p a a'.
  Proof.
    destruct p; cbn [exec_param_prop]; try (intros [= <- _]; repeat split).
    intros H. apply obind_Done in H. destruct H as ([r cx1] & Hm & [= <- _]). apply api_mention_refers in Hm.
    repeat split. exists r. split; [reflexivity|exact Hm].
  Qed.
  Lemma param_prop_steps l : forall a a' t0, (exists r, pr_schema a = Some r /\ refers t0 r) -> steps param_prop_step l a a' ->
    pr_in a' = pr_in a /\
    pr_description a' = (match last_of (fun p => match p with PpDescription s => Some s | _ => None end) l with Some s => Some s | None => pr_description a end) /\
    pr_required a' = last_or (fun p => match p with PpRequired b => Some b | _ => None end) l (pr_required a) /\
    pr_deprecated a' = last_or (fun p => match p with PpDeprecated b => Some b | _ => None end) l (pr_deprecated a) /\
    exists r, pr_schema a' = Some r /\ refers (last_or (fun p => match p with PpSchema t => Some t | _ => None end) l t0) r.
  Proof.
    intros a a' t0 H0 H. revert t0 H0. induction H as [a|p l a a1 a' (S1 & S2 & S3 & S4 & S5) _ IH]; intros t0 H0.
    - repeat split. exact H0.
    - assert (H1 : exists r, pr_schema a1 = Some r /\ refers (match p with PpSchema t => t | _ => t0 end) r)
        by (destruct p; try (rewrite S5; exact H0); exact S5).
      destruct (IH _ H1) as (I1 & I2 & I3 & I4 & I5). rewrite !last_or_given. cbn [last_of]. repeat split.
      + congruence.
      + rewrite I2, S2. last_goal; [reflexivity|]. now destruct p.
      + rewrite I3, S3. now destruct p.
      + rewrite I4, S4. now destruct p.
      + destruct p; exact I5.
  Qed.
  Lemma exec_param_means d m cx m' cx' : exec_param E fuel d m cx = Done (m', cx') ->
    exists e, param_means E d e /\ m' = bm_insert (fst e) (snd e) m.
  Proof.
    destruct d as [name props|name t props]; cbn [exec_param]; intros H; apply obind_Done in H; destruct H as ([r cx1] & Hm & H);
      apply obind_Done in H; destruct H as ([a cx2] & He & [= <- _]); apply api_mention_refers in Hm;
      (apply (exec_steps _ param_prop_step) in He; [|intros; eapply exec_param_prop_means; eauto]).
    - exists (name, a). split; [|reflexivity].
      eapply param_prop_steps in He; [|exists r; split; [reflexivity|exact Hm]]. cbn in He. destruct He as (I1 & I2 & I3 & I4 & I5).
      unfold param_means. cbn [pd_name pd_params pd_type]. repeat split; auto. rewrite I2. now last_goal.
    - exists (name, a). split; [|reflexivity].
      eapply param_prop_steps in He; [|exists r; split; [reflexivity|exact Hm]]. cbn in He. destruct He as (I1 & I2 & I3 & I4 & I5).
      unfold param_means. cbn [pd_name pd_params pd_type]. repeat split; auto. rewrite I2. now last_goal.
  Qed.
  Lemma exec_params_means l m cx m' cx' : exec_list (exec_param E fuel) l m cx = Done (m', cx') ->
    exists es, Forall2 (param_means E) l es /\ m' = declare_from m es.
  Proof.
    intros H. apply (exec_steps _ (fun d m m' => exists e, param_means E d e /\ m' = bm_insert (fst e) (snd e) m)) in H;
      [|intros; eapply exec_param_means; eauto]. now apply steps_insert in H.
  Qed.

  (** ** Bodies and responses *)
  Definition body_prop_step (p : body_prop) (st st' : option str * bool * option model_ref) : Prop :=
    fst (fst st') = (match p with BpDescription s => Some s | _ => fst (fst st) end) /\
    snd (fst st') = (match p with BpRequired b => b | _ => snd (fst st) end) /\
    (match p with BpSchema t => exists r, snd st' = Some r /\ refers t r | _ => snd st' = snd st end).
  Lemma exec_body_prop_means p st cx st' cx' : exec_body_prop E fuel p st cx = Done (st', cx') -> body_prop_step p st st'.
  Proof.
    destruct st as [[d r] s]. destruct p; cbn [exec_body_prop]; intros H; try (injection H as <- _; repeat split).
    apply obind_Done in H. destruct H as ([x cx1] & Hm & [= <- _]). apply api_mention_refers in Hm.
    repeat split. exists x. split; [reflexivity|exact Hm].
  Qed.
  Lemma body_prop_steps l : forall st st', steps body_prop_step l st st' ->
    fst (fst st') = (match last_of (fun p => match p with BpDescription s => Some s | _ => None end) l with Some s => Some s | None => fst (fst st) end) /\
    snd (fst st') = last_or (fun p => match p with BpRequired r => Some r | _ => None end) l (snd (fst st)) /\
    match last_of (fun p => match p with BpSchema t => Some t | _ => None end) l with
    | Some t => exists r, snd st' = Some r /\ refers t r
    | None => snd st' = snd st
    end.
  Proof.
    intros st st' H. induction H as [st|p l st st1 st' (S1 & S2 & S3) _ (I1 & I2 & I3)]; [repeat split|].
    rewrite last_or_given. cbn [last_of]. repeat split.
    - rewrite I1, S1. last_goal; [reflexivity|]. now destruct p.
    - rewrite I2, S2. now destruct p.
    - clear I1 I2. destruct (last_of _ l) as [t|]; [exact I3|]. rewrite I3. destruct p; exact S3.
  Qed.
  Lemma exec_body_means b cx x cx' : exec_body E fuel b cx = Done (x, cx') -> body_means E b x.
  Proof.
    destruct b as [l|t]; cbn [exec_body]; intros H; apply obind_Done in H.
    - destruct H as ([[[d r] s] cx1] & He & H). apply (exec_steps _ body_prop_step) in He; [|intros; eapply exec_body_prop_means; eauto].
      apply body_prop_steps in He. cbn [fst snd] in He. destruct He as (I1 & I2 & I3). destruct s as [y|]; [|discriminate].
      injection H as <- _. cbn [body_means rb_description rb_required rb_schema]. repeat split.
      + rewrite I1. unfold last_or. now last_goal.
      + exact I2.
      + clear I1 I2. destruct (last_of _ l) as [t|]; [|discriminate]. exists t. split; [reflexivity|]. destruct I3 as (r1 & [= <-] & H). exact H.
    - destruct H as ([y cx1] & Hm & [= <- _]). apply api_mention_refers in Hm. repeat split. exact Hm.
  Qed.
  Lemma exec_response_means c d s cx x cx' : exec_response_schema E fuel s cx = Done (x, cx') ->
    response_means E reason (c, d, s) (c, {| rs_description := response_description reason c d; rs_schema := x |}).
  Proof.
    intros H. split; [reflexivity|]. cbn [snd rs_description rs_schema]. split.
    { unfold response_description. destruct d; [reflexivity|]. now destruct (reason c). }
    destruct s; cbn [exec_response_schema] in H.
    - now injection H as <- _.
    - apply obind_Done in H. destruct H as ([y cx1] & Hm & [= <- _]). apply api_mention_refers in Hm. eauto.
    - apply obind_Done in H. destruct H as ([y cx1] & Hm & [= <- _]). apply api_mention_refers in Hm. eauto.
    - now injection H as <- _.
  Qed.

  (** ** Security *)
  Lemma exec_item_means i m cx m' cx' : exec_security_item i m cx = Done (m', cx') -> m' = bm_insert (item_name i) [] m.
  Proof.
    destruct i as [n [|]|n s [|]]; cbn [exec_security_item]; try discriminate; [now intros [= <- _]|].
    unfold mention_security_scheme. destruct (bm_get n (cx_security cx)); now intros [= <- _].
  Qed.
  Lemma exec_requirement_means l o cx o' cx' : exec_requirement l o cx = Done (o', cx') -> o' = push_security (requirement l) o.
  Proof.
    unfold exec_requirement. intros H. destruct l as [|i l]; [discriminate|]. apply obind_Done in H.
    destruct H as ([m cx1] & He & [= <- _]). f_equal.
    apply (exec_steps _ (fun i m m' => exists e, e = (item_name i, @nil str) /\ m' = bm_insert (fst e) (snd e) m)) in He;
      [|intros x _ s0 c0 s1 c1 Hx; eexists; split; [reflexivity|now apply exec_item_means in Hx]].
    apply steps_insert in He. destruct He as (es & Hes & ->). unfold requirement, declare, declare_from. f_equal.
    clear -Hes. induction Hes as [|x e l0 es -> _ IH]; [reflexivity|]. cbn [map]. now rewrite IH.
  Qed.

  (** ** Operations *)
  Section Nested.
    Variable exec_cb : callback_decl -> components -> outcome (callback * components).
    Variable cb_means : callback_decl -> callback -> Prop.

    Lemma exec_callbacks_means tr l : (forall c, In c l -> forall cx cb cx', exec_cb c cx = Done (cb, cx') -> cb_means c cb) ->
      forall o cx o' cx', exec_callbacks exec_cb tr l o cx = Done (o', cx') ->
      exists cs, Forall2 (fun d e => fst e = cd_name d /\ cb_means d (snd e)) l cs /\
        o' = Build_operation_of (op_tags o) (op_summary o) (op_id o) (op_description o) (op_deprecated o) (op_security o) (op_body o)
               (op_responses o) (op_parameters o) (declare_from (op_callbacks o) cs).
    Proof.
      intros Hcb. induction l as [|c l IH]; intros o cx o' cx' H.
      - injection H as <- _. exists []. split; [constructor|]. now destruct o.
      - assert (Hc : exists cb cx1, exec_cb c cx = Done (cb, cx1) /\ exec_callbacks exec_cb tr l (insert_callback (cd_name c) cb o) cx1 = Done (o', cx')).
        { cbn in H. destruct c as [n ps|n ps]; [destruct l; [destruct tr; [discriminate|]|discriminate]|];
            (apply obind_Done in H; destruct H as ([cb cx1] & H1 & H2); exists cb, cx1; split; [exact H1|exact H2]). }
        destruct Hc as (cb & cx1 & H1 & H2). destruct (IH (fun c Hc => Hcb c (or_intror Hc)) _ _ _ _ H2) as (cs & Hcs & ->).
        exists ((cd_name c, cb) :: cs). split; [|reflexivity]. constructor; [|exact Hcs]. split; [reflexivity|].
        eapply Hcb; [now left|exact H1].
    Qed.

    (** what one property does *)
    Definition op_step (p : op_prop callback_decl) (o o' : operation) : Prop :=
      op_tags o' = op_tags o ++ (match p with OpTags t => t | _ => [] end) /\
      op_summary o' = (match p with OpSummary s => Some s | _ => op_summary o end) /\
      op_id o' = (match p with OpId s => Some s | _ => op_id o end) /\
      op_description o' = (match p with OpDescription s => Some s | _ => op_description o end) /\
      op_deprecated o' = (match p with OpDeprecated b => b | _ => op_deprecated o end) /\
      op_security o' = op_security o ++ map requirement (match p with OpSecurity s => s | _ => [] end) /\
      (match p with OpBody b => exists x, op_body o' = Some x /\ body_means E b x | _ => op_body o' = op_body o end) /\
      (exists rs, Forall2 (response_means E reason) (match p with OpResponse c d s => [(c, d, s)] | _ => [] end) rs /\
         op_responses o' = declare_from (op_responses o) rs) /\
      (exists ps, Forall2 (param_means E) (match p with OpParameters d => d | _ => [] end) ps /\
         op_parameters o' = declare_from (op_parameters o) ps) /\
      (exists cs, Forall2 (fun d e => fst e = cd_name d /\ cb_means d (snd e)) (match p with OpCallbacks d _ => d | _ => [] end) cs /\
         op_callbacks o' = declare_from (op_callbacks o) cs).
    Lemma exec_op_prop_means p : (forall l t, p = OpCallbacks l t -> forall c, In c l -> forall cx cb cx', exec_cb c cx = Done (cb, cx') -> cb_means c cb) ->
      forall o cx o' cx', exec_op_prop E fuel reason exec_cb p o cx = Done (o', cx') -> op_step p o o'.
    Proof.
      assert (N0 : forall {A B} (P : A -> B -> Prop), Forall2 P [] []) by constructor.
      assert (Ex : forall {A K V} {HO : Ord K} (P : A -> K * V -> Prop) (m : bmap K V), exists rs, Forall2 P [] rs /\ m = declare_from m rs)
        by (intros; exists []; split; [constructor|reflexivity]).
      intros Hcb o cx o' cx' H. destruct p as [s|s|s|b|l|l|l t|l|b|c d s]; cbn [exec_op_prop] in H.
      1-5: injection H as <- _; unfold op_step; cbn; rewrite ?app_nil_r; repeat split; apply Ex.
      - apply obind_Done in H. destruct H as ([m cx1] & He & [= <- _]). apply exec_params_means in He.
        unfold op_step; cbn; rewrite ?app_nil_r; repeat split; try apply Ex. exact He.
      - apply exec_callbacks_means in H; [|exact (Hcb l t eq_refl)]. destruct H as (cs & Hcs & ->).
        unfold op_step; cbn; rewrite ?app_nil_r; repeat split; try apply Ex. eauto.
      - apply (exec_steps _ (fun r o o' => o' = push_security (requirement r) o)) in H; [|intros; eapply exec_requirement_means; eauto].
        assert (G : o' = Build_operation_of (op_tags o) (op_summary o) (op_id o) (op_description o) (op_deprecated o) (op_security o ++ map requirement l) (op_body o)
               (op_responses o) (op_parameters o) (op_callbacks o)).
        { clear -H. induction H as [o|r l o o1 o' -> _ ->]; [cbn; rewrite app_nil_r; now destruct o|].
          cbn. now rewrite <- app_assoc. }
        subst o'. unfold op_step; cbn; rewrite ?app_nil_r; repeat split; apply Ex.
      - apply obind_Done in H. destruct H as ([x cx1] & He & [= <- _]). apply exec_body_means in He.
        unfold op_step; cbn; rewrite ?app_nil_r; repeat split; try apply Ex. eauto.
      - apply obind_Done in H. destruct H as ([x cx1] & He & [= <- _]). apply (exec_response_means c d) in He.
        unfold op_step; cbn [op_tags op_summary op_id op_description op_deprecated op_security op_body op_responses op_parameters op_callbacks insert_response].
        rewrite ?app_nil_r. repeat split; try apply Ex. eexists [_]. split; [constructor; [exact He|constructor]|reflexivity].
    Qed.
    Lemma op_steps l : forall o o', steps op_step l o o' ->
      op_tags o' = op_tags o ++ flat_map (fun p => match p with OpTags t => t | _ => [] end) l /\
      op_summary o' = (match last_of (fun p => match p with OpSummary s => Some s | _ => None end) l with Some s => Some s | None => op_summary o end) /\
      op_id o' = (match last_of (fun p => match p with OpId s => Some s | _ => None end) l with Some s => Some s | None => op_id o end) /\
      op_description o' = (match last_of (fun p => match p with OpDescription s => Some s | _ => None end) l with Some s => Some s | None => op_description o end) /\
      op_deprecated o' = last_or (fun p => match p with OpDeprecated b => Some b | _ => None end) l (op_deprecated o) /\
      op_security o' = op_security o ++ map requirement (flat_map (fun p => match p with OpSecurity s => s | _ => [] end) l) /\
      (match last_of (fun p => match p with OpBody b => Some b | _ => None end) l with
       | None => op_body o' = op_body o
       | Some b => exists x, op_body o' = Some x /\ body_means E b x
       end) /\
      (exists rs, Forall2 (response_means E reason) (flat_map (fun p => match p with OpResponse c d s => [(c, d, s)] | _ => [] end) l) rs /\
         op_responses o' = declare_from (op_responses o) rs) /\
      (exists ps, Forall2 (param_means E) (flat_map (fun p => match p with OpParameters d => d | _ => [] end) l) ps /\
         op_parameters o' = declare_from (op_parameters o) ps) /\
      (exists cs, Forall2 (fun d e => fst e = cd_name d /\ cb_means d (snd e)) (flat_map (fun p => match p with OpCallbacks d _ => d | _ => [] end) l) cs /\
         op_callbacks o' = declare_from (op_callbacks o) cs).
    Proof.
      intros o o' H. induction H as [o|p l o o1 o' S0 _ I0].
      - cbn. rewrite !app_nil_r. repeat split; exists []; (split; [constructor|reflexivity]).
      - destruct S0 as (S1 & S2 & S3 & S4 & S5 & S6 & S7 & (rs & S8 & S8') & (ps & S9 & S9') & (cs & S10 & S10')).
        destruct I0 as (I1 & I2 & I3 & I4 & I5 & I6 & I7 & (rs' & I8 & I8') & (ps' & I9 & I9') & (cs' & I10 & I10')).
        cbn [flat_map last_of]. rewrite last_or_given. repeat split.
        + now rewrite I1, S1, <- app_assoc.
        + rewrite I2, S2. last_goal; [reflexivity|]. now destruct p.
        + rewrite I3, S3. last_goal; [reflexivity|]. now destruct p.
        + rewrite I4, S4. last_goal; [reflexivity|]. now destruct p.
        + rewrite I5, S5. now destruct p.
        + now rewrite I6, S6, map_app, <- app_assoc.
        + clear I1 I2 I3 I4 I5. destruct (last_of _ l) as [b|]; [exact I7|]. rewrite I7. destruct p; exact S7.
        + exists (rs ++ rs'). split; [now apply Forall2_app|]. now rewrite I8', S8', declare_from_app.
        + exists (ps ++ ps'). split; [now apply Forall2_app|]. now rewrite I9', S9', declare_from_app.
        + exists (cs ++ cs'). split; [now apply Forall2_app|]. now rewrite I10', S10', declare_from_app.
    Qed.
    Lemma exec_operation_means l : (forall cs t, In (OpCallbacks cs t) l -> forall c, In c cs -> forall cx cb cx', exec_cb c cx = Done (cb, cx') -> cb_means c cb) ->
      forall cx o cx', exec_operation E fuel reason exec_cb l cx = Done (o, cx') -> op_means E reason cb_means l o.
    Proof.
      intros Hcb cx o cx' H. unfold exec_operation in H. apply (exec_steps _ op_step) in H.
      - apply op_steps in H. destruct H as (I1 & I2 & I3 & I4 & I5 & I6 & I7 & I8 & I9 & I10). cbn in I1, I2, I3, I4, I5, I6, I7, I8, I9, I10.
        repeat split; auto.
        + rewrite I2. now last_goal.
        + rewrite I3. now last_goal.
        + rewrite I4. now last_goal.
      - intros p Hp s cx0 s' cx0' He. eapply exec_op_prop_means; [|exact He]. intros cs t -> c Hc. eapply Hcb; eauto.
    Qed.

    (** ** Paths *)
    Definition pv_step (p : path_prop callback_decl) (v v' : path_value) : Prop :=
      pv_summary v' = (match p with PvSummary s => Some s | _ => pv_summary v end) /\
      pv_description v' = (match p with PvDescription s => Some s | _ => pv_description v end) /\
      (exists ps, Forall2 (param_means E) (match p with PvParameters d => d | _ => [] end) ps /\
         pv_parameters v' = declare_from (pv_parameters v) ps) /\
      (exists os, Forall2 (fun q e => fst e = fst q /\ op_means E reason cb_means (snd q) (snd e)) (match p with PvMethod m l => [(m, l)] | _ => [] end) os /\
         pv_operations v' = declare_from (pv_operations v) os).
    Lemma exec_path_prop_means p : (forall m l, p = PvMethod m l -> forall cs t, In (OpCallbacks cs t) l -> forall c, In c cs -> forall cx cb cx', exec_cb c cx = Done (cb, cx') -> cb_means c cb) ->
      forall v cx v' cx', exec_path_prop E fuel reason exec_cb p v cx = Done (v', cx') -> pv_step p v v'.
    Proof.
      assert (Ex : forall {A K V} {HO : Ord K} (P : A -> K * V -> Prop) (m : bmap K V), exists rs, Forall2 P [] rs /\ m = declare_from m rs)
        by (intros; exists []; split; [constructor|reflexivity]).
      intros Hcb v cx v' cx' H. destruct p as [s|s|l|m l]; cbn [exec_path_prop] in H.
      1-2: injection H as <- _; unfold pv_step; cbn; repeat split; apply Ex.
      - apply obind_Done in H. destruct H as ([m cx1] & He & [= <- _]). apply exec_params_means in He.
        unfold pv_step; cbn; repeat split; [exact He|apply Ex].
      - apply obind_Done in H. destruct H as ([o cx1] & He & [= <- _]). apply exec_operation_means in He; [|eapply Hcb; eauto].
        unfold pv_step; cbn [pv_summary pv_description pv_parameters pv_operations]; repeat split; [apply Ex|].
        exists [(m, o)]. split; [constructor; [split; [reflexivity|exact He]|constructor]|reflexivity].
    Qed.
    Lemma pv_steps l : forall v v', steps pv_step l v v' ->
      pv_summary v' = (match last_of (fun p => match p with PvSummary s => Some s | _ => None end) l with Some s => Some s | None => pv_summary v end) /\
      pv_description v' = (match last_of (fun p => match p with PvDescription s => Some s | _ => None end) l with Some s => Some s | None => pv_description v end) /\
      (exists ps, Forall2 (param_means E) (flat_map (fun p => match p with PvParameters d => d | _ => [] end) l) ps /\
         pv_parameters v' = declare_from (pv_parameters v) ps) /\
      (exists os, Forall2 (fun q e => fst e = fst q /\ op_means E reason cb_means (snd q) (snd e)) (flat_map (fun p => match p with PvMethod m l => [(m, l)] | _ => [] end) l) os /\
         pv_operations v' = declare_from (pv_operations v) os).
    Proof.
      intros v v' H. induction H as [v|p l v v1 v' S0 _ I0].
      - repeat split; exists []; (split; [constructor|reflexivity]).
      - destruct S0 as (S1 & S2 & (ps & S3 & S3') & (os & S4 & S4')). destruct I0 as (I1 & I2 & (ps' & I3 & I3') & (os' & I4 & I4')).
        cbn [flat_map last_of]. repeat split.
        + rewrite I1, S1. last_goal; [reflexivity|]. now destruct p.
        + rewrite I2, S2. last_goal; [reflexivity|]. now destruct p.
        + exists (ps ++ ps'). split; [now apply Forall2_app|]. now rewrite I3', S3', declare_from_app.
        + exists (os ++ os'). split; [now apply Forall2_app|]. now rewrite I4', S4', declare_from_app.
    Qed.
    Lemma exec_path_means d : (forall m l, In (PvMethod m l) (pd_props d) -> forall cs t, In (OpCallbacks cs t) l -> forall c, In c cs -> forall cx cb cx', exec_cb c cx = Done (cb, cx') -> cb_means c cb) ->
      forall cx e cx', exec_path E fuel reason seg exec_cb d cx = Done (e, cx') -> path_means E reason seg cb_means d e.
    Proof.
      intros Hcb cx e cx' H. unfold exec_path in H. apply obind_Done in H. destruct H as ([[p params] cx1] & Hu & H).
      apply obind_Done in H. destruct H as ([v cx2] & Hv & [= <- _]).
      apply exec_url_means in Hu. destruct Hu as (segs & up & U1 & U2 & U3 & ->).
      apply (exec_steps _ pv_step) in Hv.
      - apply pv_steps in Hv. destruct Hv as (I1 & I2 & (ps & I3 & I3') & I4). cbn in I1, I2, I3', I4.
        repeat split; cbn [fst snd].
        + exists segs, up, ps. repeat split; auto. rewrite I3'. change (declare up) with (declare_from (@nil (str * op_parameter)) up). now rewrite <- declare_from_app.
        + rewrite I1. now last_goal.
        + rewrite I2. now last_goal.
        + exact I4.
      - intros q Hq s cx0 s' cx0' He. eapply exec_path_prop_means; [|exact He]. intros m l ->. eapply Hcb; eauto.
    Qed.
    Lemma exec_paths_means ds : (forall d, In d ds -> forall m l, In (PvMethod m l) (pd_props d) -> forall cs t, In (OpCallbacks cs t) l -> forall c, In c cs -> forall cx cb cx', exec_cb c cx = Done (cb, cx') -> cb_means c cb) ->
      forall ps cx ps' cx', exec_list (exec_path_push E fuel reason seg exec_cb) ds ps cx = Done (ps', cx') ->
      exists qs, Forall2 (path_means E reason seg cb_means) ds qs /\ ps' = ps ++ qs.
    Proof.
      intros Hcb ps cx ps' cx' H.
      apply (exec_steps _ (fun d ps ps' => exists e, path_means E reason seg cb_means d e /\ ps' = ps ++ [e])) in H.
      - clear -H. induction H as [s|d l s s1 s' (e & He & ->) _ (qs & Hq & ->)]; [exists []; split; [constructor|now rewrite app_nil_r]|].
        exists (e :: qs). split; [now constructor|]. now rewrite <- app_assoc.
      - intros d Hd s cx0 s' cx0' He. unfold exec_path_push in He. apply obind_Done in He. destruct He as ([e cx1] & He & [= <- _]).
        exists e. split; [|reflexivity]. eapply exec_path_means; [|exact He]. intros. eapply Hcb; eauto.
    Qed.
  End Nested.

  (** ** Callbacks *)
  Section CallbackDeclInd.
    Variable P : callback_decl -> Prop.
    Hypothesis HP : forall c, (forall n l d m ops cs t c', c = CbIdent n l -> In d l -> In (PvMethod m ops) (pd_props d) -> In (OpCallbacks cs t) ops -> In c' cs -> P c') -> P c.
    Definition PO (p : op_prop callback_decl) : Prop := match p with OpCallbacks cs _ => Forall P cs | _ => True end.
    Definition PP (p : path_prop callback_decl) : Prop := match p with PvMethod _ l => Forall PO l | _ => True end.
    Definition PD (d : path_decl) : Prop := Forall PP (pd_props d).
    Lemma P_ident n l : Forall PD l -> P (CbIdent n l).
    Proof.
      intros Hf. apply HP. intros n' l' d m ops cs t c' [= <- <-] H1 H2 H3 H4.
      rewrite Forall_forall in Hf. specialize (Hf _ H1). unfold PD in Hf. rewrite Forall_forall in Hf. specialize (Hf _ H2).
      cbn in Hf. rewrite Forall_forall in Hf. specialize (Hf _ H3). cbn in Hf. rewrite Forall_forall in Hf. now apply Hf.
    Qed.
    Lemma P_lit n l : P (CbLit n l).
    Proof. apply HP. discriminate. Qed.
    Fixpoint callback_decl_ind' (c : callback_decl) : P c :=
      match c with
      | CbLit n l => P_lit n l
      | CbIdent n l =>
          P_ident n l
            ((fix god (l : list path_decl) : Forall PD l :=
                match l with
                | [] => Forall_nil _
                | d :: l' =>
                    Forall_cons d
                      ((fix gop (l : list (path_prop callback_decl)) : Forall PP l :=
                          match l with
                          | [] => Forall_nil _
                          | p :: l' =>
                              Forall_cons p
                                (match p return PP p with
                                 | PvMethod _ ops =>
                                     (fix goo (l : list (op_prop callback_decl)) : Forall PO l :=
                                        match l with
                                        | [] => Forall_nil _
                                        | o :: l' =>
                                            Forall_cons o
                                              (match o return PO o with
                                               | OpCallbacks cs _ =>
                                                   (fix goc (l : list callback_decl) : Forall P l :=
                                                      match l with [] => Forall_nil _ | c :: l' => Forall_cons c (callback_decl_ind' c) (goc l') end) cs
                                               | _ => I
                                               end) (goo l')
                                        end) ops
                                 | _ => I
                                 end) (gop l')
                          end) (pd_props d)) (god l')
                end) l)
      end.
  End CallbackDeclInd.

  Lemma exec_callback_means c : forall cx cb cx', exec_callback E fuel reason seg c cx = Done (cb, cx') -> callback_means E reason seg c cb.
  Proof.
    induction c as [c IH] using callback_decl_ind'. intros cx cb cx' H. destruct c as [n l|n l].
    - injection H as <- _. constructor.
    - cbn in H. apply obind_Done in H. destruct H as ([ps cx1] & He & [= <- _]). constructor.
      eapply exec_paths_means in He.
      + destruct He as (qs & Hq & ->). exact Hq.
      + intros d Hd m ops Hm cs t Hc c' Hc' cx0 cb cx0'. eapply IH; eauto.
  Qed.

  (** ** Documents *)
  Lemma once_last {X A} (sel : X -> list A) l o : once (flat_map sel l) = Some o -> (forall x, length (sel x) <= 1) ->
    last_of (fun x => match sel x with a :: _ => Some a | [] => None end) l = o.
  Proof.
    intros H Hs. revert o H. induction l as [|x l IH]; cbn [flat_map last_of]; intros o H; [now injection H as <-|].
    specialize (Hs x) as Hx. destruct (sel x) as [|a [|b r]]; [| |cbn in Hx; lia].
    - cbn in H. rewrite (IH _ H). now destruct o.
    - cbn in H. destruct (flat_map sel l) as [|c r] eqn:Ef; [|discriminate]. injection H as <-. now rewrite (IH None eq_refl).
  Qed.
  Lemma last_of_ext {X A} (f g : X -> option A) l : (forall x, f x = g x) -> last_of f l = last_of g l.
  Proof. intros H. induction l as [|x l IH]; [reflexivity|]. cbn. now rewrite IH, H. Qed.
  Lemma exec_info_means l i : exec_info l = Done i -> info_means l i.
  Proof.
    unfold exec_info.
    destruct (once (flat_map (fun p => match p with IpTitle s => [s] | _ => [] end) l)) as [t|] eqn:E1; [|discriminate].
    destruct (once (flat_map (fun p => match p with IpVersion s => [s] | _ => [] end) l)) as [v|] eqn:E2; [|discriminate].
    destruct (once (flat_map (fun p => match p with IpDescription s => [s] | _ => [] end) l)) as [d|] eqn:E3; [|discriminate].
    intros [= <-]. apply once_last in E1; [|now intros []; cbn; auto]. apply once_last in E2; [|now intros []; cbn; auto].
    apply once_last in E3; [|now intros []; cbn; auto].
    split; [|split]; cbn [in_title in_version in_description].
    - unfold last_or. rewrite (last_of_ext _ (fun p => match (match p with IpTitle s => [s] | _ => [] end) with a :: _ => Some a | [] => None end)) by now intros [].
      now rewrite E1.
    - unfold last_or. rewrite (last_of_ext _ (fun p => match (match p with IpVersion s => [s] | _ => [] end) with a :: _ => Some a | [] => None end)) by now intros [].
      now rewrite E2.
    - rewrite (last_of_ext _ (fun p => match (match p with IpDescription s => [s] | _ => [] end) with a :: _ => Some a | [] => None end)) by now intros [].
      now rewrite E3.
  Qed.
  Lemma exec_sections_means a : forall d d', exec_sections E fuel reason seg a d = Done d' ->
    (match last_of (fun s => match s with ScInfo l => Some l | _ => None end) a with
     | None => og_info d' = og_info d
     | Some l => info_means l (og_info d')
     end) /\
    og_tags d' = declare_from (og_tags d) (map (fun t => (fst t, {| tg_description := snd t |})) (flat_map (fun s => match s with ScTags l => l | _ => [] end) a)) /\
    og_servers d' = og_servers d ++ map (fun s => {| sv_url := fst s; sv_description := snd s |}) (flat_map (fun s => match s with ScServers l => l | _ => [] end) a) /\
    exists qs, Forall2 (path_means E reason seg (callback_means E reason seg)) (flat_map (fun s => match s with ScPaths l => l | _ => [] end) a) qs /\
      og_paths d' = og_paths d ++ qs.
  Proof.
    induction a as [|s a IH]; intros d d' H.
    - injection H as <-. cbn. rewrite app_nil_r. repeat split. exists []. split; [constructor|]. now rewrite app_nil_r.
    - cbn [exec_sections] in H. apply obind_Done in H. destruct H as (d1 & H1 & H2). destruct (IH _ _ H2) as (I1 & I2 & I3 & (qs & I4 & I4')).
      cbn [last_of flat_map]. destruct s as [l|l|l|l|l]; cbn [exec_section] in H1; cbn [app].
      + apply obind_Done in H1. destruct H1 as (i & Hi & [= <-]). apply exec_info_means in Hi. cbn in I1, I2, I3, I4, I4'. repeat split; auto.
        * destruct (last_of _ a); [exact I1|]. now rewrite I1.
        * now exists qs.
      + injection H1 as <-. cbn in I1, I2, I3, I4, I4'. repeat split; auto.
        * destruct (last_of _ a); exact I1.
        * rewrite I2, map_app, declare_from_app. f_equal. unfold declare_from. clear.
          generalize (og_tags d). induction l as [|t l IH]; intros m; [reflexivity|]. cbn. apply IH.
        * now exists qs.
      + injection H1 as <-. cbn in I1, I2, I3, I4, I4'. repeat split; auto.
        * destruct (last_of _ a); exact I1.
        * now rewrite I3, map_app, <- app_assoc.
        * now exists qs.
      + apply obind_Done in H1. destruct H1 as ([_ cx] & _ & [= <-]). cbn in I1, I2, I3, I4, I4'. repeat split; auto.
        * destruct (last_of _ a); exact I1.
        * now exists qs.
      + apply obind_Done in H1. destruct H1 as ([ps cx] & Hp & [= <-]). cbn in I1, I2, I3, I4, I4'.
        eapply exec_paths_means in Hp; [|intros; eapply exec_callback_means; eauto]. destruct Hp as (qs0 & Hq & ->). repeat split; auto.
        * destruct (last_of _ a); exact I1.
        * exists (qs0 ++ qs). split; [now apply Forall2_app|]. now rewrite I4', <- app_assoc.
  Qed.
  Lemma describe_api_means a d : describe_api E fuel reason seg a = Done d -> api_means E reason seg a d.
  Proof.
    unfold describe_api. destruct (forallb (section_compiles seg) a); [|discriminate]. intros H.
    apply exec_sections_means in H. destruct H as (I1 & I2 & I3 & (qs & I4 & I4')). cbn in I1, I2, I3, I4'. subst qs.
    repeat split; assumption.
  Qed.
End Means.
