(** Facts for C80: the order of evaluation and the order of writing. *)
From Coq Require Import List NArith Bool Permutation.
From Verif Require Import Str Api Expand OrderSpec OrderFacts2.
Import ListNotations.

Lemma flat_map_perm {A B} (f g : A -> list B) l : Forall (fun a => Permutation (f a) (g a)) l -> Permutation (flat_map f l) (flat_map g l).
Proof. induction 1; cbn; auto using Permutation_app. Qed.
Lemma flat_map_same {A B} (f g : A -> list B) l : (forall a, In a l -> f a = g a) -> flat_map f l = flat_map g l.
Proof. induction l as [|a l IH]; intros H; cbn; [reflexivity|]. rewrite (H a (or_introl eq_refl)), IH; auto using in_cons. Qed.
(** what is in both, and what is in the first only *)
Definition covers {B} (l l' : list B) : Prop := exists r, Permutation l (l' ++ r).
Lemma covers_refl {B} (l : list B) : covers l l.
Proof. exists []. now rewrite app_nil_r. Qed.
Lemma covers_perm {B} (l l' : list B) : Permutation l l' -> covers l l'.
Proof. exists []. now rewrite app_nil_r. Qed.
Lemma covers_app {B} (a a' b b' : list B) : covers a a' -> covers b b' -> covers (a ++ b) (a' ++ b').
Proof.
  intros [r H] [r' H']. exists (r ++ r'). rewrite H, H', <- !app_assoc. apply Permutation_app_head. rewrite !app_assoc.
  apply Permutation_app_tail, Permutation_app_comm.
Qed.
Lemma covers_nil {B} (l : list B) : covers l [].
Proof. now exists l. Qed.
Lemma flat_map_covers {A B} (f g : A -> list B) l : Forall (fun a => covers (f a) (g a)) l -> covers (flat_map f l) (flat_map g l).
Proof. induction 1; cbn; auto using covers_refl, covers_app. Qed.

Lemma named_perm a b n l : Permutation (named a n l) (named b n l).
Proof. destruct a, b; cbn; auto using Permutation_cons_append. symmetry. apply Permutation_cons_append. Qed.
Lemma param_perm a b d : Permutation (param_exprs a d) (param_exprs b d).
Proof. destruct d; cbn; [apply named_perm|reflexivity]. Qed.
Lemma scheme_perm a b d : Permutation (scheme_exprs a d) (scheme_exprs b d).
Proof. destruct d; cbn; [reflexivity|apply named_perm]. Qed.
Lemma params_perm a b l : Permutation (flat_map (param_exprs a) l) (flat_map (param_exprs b) l).
Proof. apply flat_map_perm, Forall_forall. intros. apply param_perm. Qed.

Lemma callback_covers c : covers (callback_exprs true true c) (callback_exprs false false c).
Proof.
  induction c as [n ps IH|n ps IH] using xcallback_ind'; cbn [callback_exprs]; [apply covers_nil|].
  apply flat_map_covers. eapply Forall_impl; [|exact IH]. intros d Hd. apply flat_map_covers. eapply Forall_impl; [|exact Hd].
  intros [] Hp; cbn [path_prop_exprs]; try apply covers_refl; [apply covers_perm, params_perm|].
  apply flat_map_covers. eapply Forall_impl; [|exact Hp]. intros [] Ho; cbn [op_prop_exprs]; try apply covers_refl.
  - apply covers_perm, params_perm.
  - now apply flat_map_covers.
Qed.
Theorem written_covers x : covers (written x) (evaluated x).
Proof.
  apply flat_map_covers, Forall_forall. intros [] _; cbn [section_exprs]; try apply covers_refl.
  - apply covers_perm, flat_map_perm, Forall_forall. intros. apply scheme_perm.
  - apply flat_map_covers, Forall_forall. intros d _. apply flat_map_covers, Forall_forall.
    intros [] _; cbn [path_prop_exprs]; try apply covers_refl; [apply covers_perm, params_perm|].
    apply flat_map_covers, Forall_forall. intros [] _; cbn [op_prop_exprs]; try apply covers_refl; [apply covers_perm, params_perm|].
    apply flat_map_covers, Forall_forall. intros. apply callback_covers.
Qed.

(** without callbacks named by literals *)
Lemma path_in_more l d m ops cs t n ps d' : path_in l d -> In (XvMethod m ops) (xd_props d) -> In (XoCallbacks cs t) ops -> In (XcIdent n ps) cs ->
  path_in ps d' -> path_in l d'.
Proof.
  intros H1 H2 H3 H4 H. induction H as [d0 Hd0|d0 m0 o0 c0 t0 n0 p0 e0 _ IH K1 K2 K3 K4].
  - exact (pi_callback _ _ _ _ _ _ _ _ _ H1 H2 H3 H4 Hd0).
  - exact (pi_callback _ _ _ _ _ _ _ _ _ IH K1 K2 K3 K4).
Qed.
Definition no_lits (l : list xpath_decl) : Prop :=
  forall d m ops cs t n ps, path_in l d -> In (XvMethod m ops) (xd_props d) -> In (XoCallbacks cs t) ops -> ~ In (XcLit n ps) cs.
Lemma no_lits_in l d m ops cs t n ps : no_lits l -> In d l -> In (XvMethod m ops) (xd_props d) -> In (XoCallbacks cs t) ops -> In (XcIdent n ps) cs -> no_lits ps.
Proof.
  intros H H1 H2 H3 H4 d' m' ops' cs' t' n' ps' K1 K2 K3. apply (H d' m' ops' cs' t' n' ps'); auto. exact (path_in_more _ _ _ _ _ _ _ _ _ (pi_here _ _ H1) H2 H3 H4 K1).
Qed.
Lemma path_same_lits nf d l : (forall c, match c with XcIdent _ ps => no_lits ps -> callback_exprs nf true c = callback_exprs nf false c | _ => True end) ->
  no_lits l -> In d l -> path_exprs nf (callback_exprs nf true) d = path_exprs nf (callback_exprs nf false) d.
Proof.
  intros HP Hl Hd. apply flat_map_same. intros [] Hp; cbn [path_prop_exprs]; try reflexivity.
  apply flat_map_same. intros [] Ho; cbn [op_prop_exprs]; try reflexivity. apply flat_map_same. intros c Hc. specialize (HP c).
  destruct c as [n ps|n ps].
  - destruct (Hl d m l0 l1 trailing_comma n ps (pi_here _ _ Hd) Hp Ho Hc).
  - apply HP. eapply no_lits_in; eauto.
Qed.
Lemma path_same_lits' nf d l :
  all_decl (fun c => match c with XcIdent _ ps => no_lits ps -> callback_exprs nf true c = callback_exprs nf false c | _ => True end) d ->
  no_lits l -> In d l -> path_exprs nf (callback_exprs nf true) d = path_exprs nf (callback_exprs nf false) d.
Proof.
  intros HP Hl Hd. unfold all_decl in HP. rewrite Forall_forall in HP. apply flat_map_same. intros p Hp. specialize (HP p Hp).
  destruct p; cbn [path_prop_exprs]; try reflexivity. cbn in HP. rewrite Forall_forall in HP.
  apply flat_map_same. intros o Ho. specialize (HP o Ho). destruct o; cbn [op_prop_exprs]; try reflexivity. cbn in HP. rewrite Forall_forall in HP.
  apply flat_map_same. intros c Hc. specialize (HP c Hc). destruct c as [n ps|n ps].
  - destruct (Hl d m l0 l1 trailing_comma n ps (pi_here _ _ Hd) Hp Ho Hc).
  - apply HP. eapply no_lits_in; eauto.
Qed.
Lemma callback_same_lits nf c :
  match c with XcIdent _ ps => no_lits ps -> callback_exprs nf true c = callback_exprs nf false c | _ => True end.
Proof.
  induction c as [n ps IH|n ps IH] using xcallback_ind'; [exact I|]. intros Hl. cbn [callback_exprs]. apply flat_map_same. intros d Hd.
  rewrite Forall_forall in IH. eapply path_same_lits'; eauto.
Qed.
Lemma exprs_same_lits nf x : no_literal_callbacks x -> exprs nf true x = exprs nf false x.
Proof.
  intros Hx. apply flat_map_same. intros [] Hs; cbn [section_exprs]; try reflexivity. apply flat_map_same. intros d Hd.
  apply (path_same_lits nf d l); [exact (callback_same_lits nf)| |exact Hd]. intros d' m ops cs t n ps H. apply Hx. exists l. auto.
Qed.

(** the names *)
Lemma perm_names lc x : Permutation (exprs true lc x) (exprs false lc x).
Proof.
  assert (Hd : forall d (ce ce' : xcallback_decl -> list uexpr), all_decl (fun c => Permutation (ce c) (ce' c)) d -> Permutation (path_exprs true ce d) (path_exprs false ce' d)).
  { intros d ce ce' H. apply flat_map_perm. eapply Forall_impl; [|exact H]. intros [] Hp; cbn [path_prop_exprs]; auto using params_perm.
    apply flat_map_perm. eapply Forall_impl; [|exact Hp]. intros [] Ho; cbn [op_prop_exprs]; auto using params_perm. now apply flat_map_perm. }
  assert (Hc : forall c, Permutation (callback_exprs true lc c) (callback_exprs false lc c)).
  { induction c as [n ps IH|n ps IH] using xcallback_ind'; cbn [callback_exprs]; [destruct lc; [|reflexivity]|];
      (apply flat_map_perm; eapply Forall_impl; [|exact IH]; intros d H; now apply Hd). }
  apply flat_map_perm, Forall_forall. intros [] _; cbn [section_exprs]; auto.
  - apply flat_map_perm, Forall_forall. intros. apply scheme_perm.
  - apply flat_map_perm, Forall_forall. intros d _. apply Hd. now apply decl_good.
Qed.
Theorem evaluated_perm x : no_literal_callbacks x -> Permutation (evaluated x) (written x).
Proof. intros H. unfold evaluated, written. rewrite (exprs_same_lits _ _ H). symmetry. apply perm_names. Qed.

Definition headers_bare (l : list xparam_decl) : Prop := forall n props, In (XdHeader n props) l -> flat_map param_prop_exprs props = [].
Lemma params_same l : headers_bare l -> flat_map (param_exprs true) l = flat_map (param_exprs false) l.
Proof. intros H. apply flat_map_same. intros [n props|] Hd; cbn; [|reflexivity]. now rewrite (H n props Hd). Qed.
Definition bare (l : list xpath_decl) : Prop := forall d ps, path_in l d ->
  In (XvParameters ps) (xd_props d) \/ (exists m ops, In (XvMethod m ops) (xd_props d) /\ In (XoParameters ps) ops) -> headers_bare ps.
Lemma bare_in l d m ops cs t n ps : bare l -> In d l -> In (XvMethod m ops) (xd_props d) -> In (XoCallbacks cs t) ops -> In (XcIdent n ps) cs -> bare ps.
Proof. intros H H1 H2 H3 H4 d' ps' K1 K2. apply (H d' ps'); [|exact K2]. exact (path_in_more _ _ _ _ _ _ _ _ _ (pi_here _ _ H1) H2 H3 H4 K1). Qed.
Definition callback_bare (c : xcallback_decl) : Prop := match c with XcIdent _ ps => bare ps | _ => True end.
Lemma path_same_names d l :
  all_decl (fun c => callback_bare c -> callback_exprs true false c = callback_exprs false false c) d ->
  bare l -> In d l -> path_exprs true (callback_exprs true false) d = path_exprs false (callback_exprs false false) d.
Proof.
  intros HP Hl Hd. unfold all_decl in HP. rewrite Forall_forall in HP. apply flat_map_same. intros p Hp. specialize (HP p Hp).
  destruct p; cbn [path_prop_exprs]; try reflexivity; [apply params_same; eapply Hl; [constructor; eassumption|auto]|]. cbn in HP. rewrite Forall_forall in HP.
  apply flat_map_same. intros o Ho. specialize (HP o Ho).
  destruct o; cbn [op_prop_exprs]; try reflexivity; [apply params_same; eapply Hl; [constructor; eassumption|right; eauto]|].
  cbn in HP. rewrite Forall_forall in HP. apply flat_map_same. intros c Hc. apply (HP c Hc). destruct c; [exact I|]. eapply bare_in; eauto.
Qed.
Lemma callback_same_names c : callback_bare c -> callback_exprs true false c = callback_exprs false false c.
Proof.
  induction c as [n ps IH|n ps IH] using xcallback_ind'; [reflexivity|]. intros Hb. cbn [callback_exprs]. apply flat_map_same. intros d Hd.
  rewrite Forall_forall in IH. eapply path_same_names; eauto.
Qed.
Theorem evaluated_as_written x : no_literal_callbacks x ->
  (forall n props, has_header x n props -> flat_map param_prop_exprs props = []) ->
  (forall l n props, In (XcSecurity l) x -> ~ In (XsApiKey n props) l) -> evaluated x = written x.
Proof.
  intros Hx Hh Hk. unfold written. rewrite (exprs_same_lits _ _ Hx). symmetry. apply flat_map_same. intros [] Hs; cbn [section_exprs]; try reflexivity.
  - apply flat_map_same. intros [] Hd; [reflexivity|]. destruct (Hk _ _ _ Hs Hd).
  - apply flat_map_same. intros d Hd. apply (path_same_names d l); auto; [apply decl_good; intros c; apply callback_same_names|].
    intros d' ps Hd' Hps n props Hn. apply (Hh n props). exists d', ps. split; [now exists l|auto].
Qed.
