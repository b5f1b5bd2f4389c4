(** Facts for C80: the expressions in the code of an invocation. *)
From Coq Require Import List NArith Bool Lia Permutation.
From Verif Require Import Str Api Expand Trace OrderSpec OrderFacts.
Import ListNotations.

Lemma does_e_eq x T T' : does_e x T -> T = T' -> does_e x T'.
Proof. now intros ? <-. Qed.
Lemma does_s_eq x T T' : does_s x T -> T = T' -> does_s x T'.
Proof. now intros ? <-. Qed.
Lemma does_l_eq x T T' : does_l x T -> T = T' -> does_l x T'.
Proof. now intros ? <-. Qed.
Lemma does_app l1 l2 T1 T2 : does_l l1 T1 -> does_l l2 T2 -> does_l (l1 ++ l2) (T1 ++ T2).
Proof.
  intros H1 H2. revert T1 H1. induction l1 as [|s l1 IH]; intros T1 H1; inversion H1; subst; cbn; [exact H2| |].
  - rewrite <- app_assoc. constructor; auto.
  - apply dl_norule.
Qed.
Lemma does_app0 l1 l2 T : does_l l1 [] -> does_l l2 T -> does_l (l1 ++ l2) T.
Proof. intros. change T with ([] ++ T). now apply does_app. Qed.
Lemma does_app1 l1 l2 T : does_l l1 T -> does_l l2 [] -> does_l (l1 ++ l2) T.
Proof. intros. rewrite <- (app_nil_r T). now apply does_app. Qed.
Lemma does_cons0 s l T : does_s s [] -> does_l l T -> does_l (s :: l) T.
Proof. intros. change T with ([] ++ T). now constructor. Qed.
Lemma does_cons1 s T : does_s s T -> does_l [s] T.
Proof. intros. rewrite <- (app_nil_r T). now repeat constructor. Qed.
Lemma does_map {X} (f : X -> stmt) (g : X -> list uexpr) l : (forall x, In x l -> does_s (f x) (g x)) -> does_l (map f l) (flat_map g l).
Proof. induction l as [|x l IH]; intros H; cbn; constructor; auto using in_eq, in_cons. Qed.
Lemma does_text e : does_e (text e) [e].
Proof. repeat constructor. Qed.
Lemma does_lit s : does_e (lit s) [].
Proof. repeat constructor. Qed.
Lemma does_fields0 l : Forall (fun b => does_e (snd b) []) l -> does_f l [].
Proof.
  induction 1 as [|[f x] l H _ IH]; [constructor|]. change (@nil uexpr) with (@nil uexpr ++ []). now constructor.
Qed.
Lemma does_vals0 l : Forall (fun x => does_e x []) l -> does_v l [].
Proof. induction 1 as [|x l H _ IH]; [constructor|]. change (@nil uexpr) with (@nil uexpr ++ []). now constructor. Qed.
Ltac nilapp := change (@nil uexpr) with (@nil uexpr ++ []).
(** code without expressions *)
Ltac silent :=
  repeat match goal with
  | |- does_e (lit _) [] => apply does_lit
  | |- does_e (parameter_literal _ _ _) [] => unfold parameter_literal
  | |- does_e (insert_url_param _ _ _ _) [] => unfold insert_url_param
  | |- does_e (some _) _ => constructor
  | |- does_e none _ => constructor
  | |- does_e (EUser _) [_] => constructor
  | |- does_e (text _) [_] => apply does_text
  | |- does_e (EStruct _ _) [] => constructor; apply does_fields0; repeat constructor
  | |- does_e (EOr _ _) [] => nilapp; constructor
  | |- does_e (EConcat _ _) [] => nilapp; constructor
  | |- does_e (EPair _ _) [] => nilapp; constructor
  | |- does_e (EMentionScheme _ _ _) [] => nilapp; constructor
  | |- does_e (EBlock _ _) [] => nilapp; constructor
  | |- does_s (SInsert _ _ _ _) [] => nilapp; constructor
  | |- does_l (_ :: _) [] => apply does_cons0
  | |- does_l (_ ++ _) [] => apply does_app0
  | |- does_l [] [] => constructor
  | |- does_e _ _ => constructor
  | |- does_s _ _ => constructor
  | |- does_e (snd _) _ => cbn
  end.

Lemma does_params m r c l : does_l (expand_params m r c l) (flat_map (param_exprs false) l).
Proof.
  assert (Hp : forall r x p, does_s (expand_param_prop r x p) (param_prop_exprs p)) by (intros ? ? []; cbn; silent).
  revert m. induction l as [|[n props|n t props] l IH]; intros m; cbn [expand_params flat_map]; [constructor| |];
    (constructor; [|apply IH]); constructor; (apply does_cons0; [silent|]); cbn [param_exprs named].
  - apply does_app; [apply does_map; auto|]. apply does_cons1. change [n] with ([n] ++ []). constructor; silent.
  - apply does_app1; [apply does_map; auto|]. apply does_cons1. silent.
Qed.
Lemma does_schemes m r l : does_l (expand_schemes m r l) (flat_map (scheme_exprs false) l).
Proof.
  revert m. induction l as [|[n props|n props] l IH]; intros m; cbn [expand_schemes flat_map]; [constructor| |];
    (constructor; [|apply IH]); constructor; (apply does_app0; [silent|]); cbn [scheme_exprs named].
  - apply does_app1; [apply does_map; intros [] _; cbn; silent|]. silent.
  - apply does_app; [apply does_map; intros [] _; cbn; silent|]. apply does_cons0; [silent|].
    apply does_cons1. change [n] with ([n] ++ []). constructor; silent.
Qed.
Lemma does_info r l : does_l (expand_info r l) (flat_map info_prop_exprs l).
Proof.
  apply does_cons1. constructor. apply does_app1; [apply does_map; intros [] _; cbn; silent|].
  apply does_cons1. constructor. constructor. apply does_fields0. apply Forall_map, Forall_forall. intros; cbn; constructor.
Qed.
Lemma does_tags r l : does_l (expand_tags r l) (flat_map tag_exprs l).
Proof.
  apply does_cons1. constructor. apply does_map. intros [n [e|]] _; cbn.
  - change [e] with ([] ++ ([e] ++ [])). constructor; [silent|]. constructor. change [e] with ([e] ++ []). constructor; [silent|constructor].
  - silent.
Qed.
Lemma does_server_text t : does_e (server_text t) [].
Proof. destruct t; silent. Qed.
Lemma does_servers r l : does_l (expand_servers r l) [].
Proof.
  apply does_cons1. constructor. eapply does_l_eq; [apply does_map with (g := fun _ => [])|].
  - intros [n [d|]] _; cbn; silent; cbn; try constructor; apply does_server_text.
  - now induction l.
Qed.
Lemma does_security m r c l : does_l (expand_security m r c l) [].
Proof.
  revert m. induction l as [|[|i items] l IH]; intros m; [constructor|apply dl_norule|]. cbn [expand_security]. apply does_cons0; [|apply IH].
  constructor. apply does_cons0; [silent|]. apply does_app0; [|silent].
  eapply does_l_eq; [apply does_map with (g := fun _ => [])|now induction (i :: items)].
  intros [] _; cbn; silent; apply does_vals0, Forall_map, Forall_forall; intros; constructor.
Qed.
Lemma does_body m r c b : does_l (expand_body m r c b) [].
Proof.
  destruct b as [l|t]; cbn [expand_body]; [|silent]. apply does_app0; [silent|]. apply does_app0; [|silent].
  eapply does_l_eq; [apply does_map with (g := fun _ => [])|now induction l]. intros [] _; cbn; silent.
Qed.
Lemma does_response r c code d s : does_l (expand_response r c code d s) (op_prop_exprs false (fun _ => []) (XoResponse code d s)).
Proof.
  assert (Hd : does_e (EUnwrapOrElse (EExtract (option_map lit d)) (EUnwrapOrElse (EReason code) (lit []))) []) by (destruct d; silent).
  assert (Hx : does_e (EExtract (option_map lit d)) []) by (destruct d; silent).
  apply does_cons1. destruct s; cbn; try solve [silent; exact Hx].
  change [e] with ([] ++ ([] ++ [e] ++ [])). constructor; [silent|]. constructor. constructor; [auto|]. constructor; [silent|constructor].
Qed.

(** ** Callbacks within callbacks *)
Section Ind.
  Variable P : xcallback_decl -> Prop.
  Definition all_op (p : xop_prop xcallback_decl) : Prop := match p with XoCallbacks l _ => Forall P l | _ => True end.
  Definition all_path (p : xpath_prop xcallback_decl) : Prop := match p with XvMethod _ l => Forall all_op l | _ => True end.
  Definition all_decl (d : xpath_decl) : Prop := Forall all_path (xd_props d).
  Hypothesis Hlit : forall n ps, Forall all_decl ps -> P (XcLit n ps).
  Hypothesis Hident : forall n ps, Forall all_decl ps -> P (XcIdent n ps).
  Fixpoint xcallback_ind' (c : xcallback_decl) : P c :=
    let op (p : xop_prop xcallback_decl) : all_op p :=
      match p with
      | XoCallbacks l _ => (fix go l : Forall P l := match l with [] => Forall_nil _ | x :: l' => Forall_cons _ (xcallback_ind' x) (go l') end) l
      | _ => I
      end in
    let path (p : xpath_prop xcallback_decl) : all_path p :=
      match p with
      | XvMethod _ l => (fix go l : Forall all_op l := match l with [] => Forall_nil _ | x :: l' => Forall_cons _ (op x) (go l') end) l
      | _ => I
      end in
    let decl (d : xpath_decl) : all_decl d :=
      (fix go l : Forall all_path l := match l with [] => Forall_nil _ | x :: l' => Forall_cons _ (path x) (go l') end) (xd_props d) in
    let decls := fix go l : Forall all_decl l := match l with [] => Forall_nil _ | x :: l' => Forall_cons _ (decl x) (go l') end in
    match c with XcLit n ps => Hlit n ps (decls ps) | XcIdent n ps => Hident n ps (decls ps) end.
End Ind.

Section Expand.
  Variable seg : list tree -> option segment.
  Lemma does_url m p r c url : does_l (expand_url seg m p r c url) [].
  Proof.
    assert (Hs : forall m s, does_s (expand_segment m p r c s) []) by (intros ? []; cbn; silent; cbn; silent).
    unfold expand_url. destruct (munch url []) as [l|]; [|apply dl_norule]. revert m.
    induction l as [|g l IH]; intros m; cbn; [constructor|]. apply does_cons0; [|apply IH].
    destruct (group_text g) as [ts|]; [|constructor]. destruct (seg ts); auto. constructor.
  Qed.
  Section Nested.
    Variable cp : mark -> ident -> ident -> xcallback_decl -> list stmt.
    Variable ce : xcallback_decl -> list uexpr.
    Definition good (c : xcallback_decl) : Prop := forall m r t,
      match c with XcLit _ _ => ce c = [] | XcIdent _ _ => does_l (cp m r t c) (ce c) end.
    Lemma does_callbacks trailing m r c l : Forall good l -> does_l (expand_callbacks cp trailing m r c l) (flat_map ce l).
    Proof.
      intros Hl. revert m. induction Hl as [|x l Hx Hl IH]; intros m; [constructor|]. cbn [expand_callbacks flat_map].
      destruct x as [n ps|n ps].
      - destruct l; [|apply dl_norule]. destruct trailing; [apply dl_norule|]. rewrite (Hx m r c). cbn. silent.
      - apply does_app0; [silent|]. apply does_app; [apply Hx|]. apply does_app0; [silent|]. apply IH.
    Qed.
    Lemma does_op m r c p : all_op good p -> does_l (expand_op_prop cp m r c p) (op_prop_exprs false ce p).
    Proof.
      destruct p; cbn [all_op expand_op_prop]; intros H; cbn [op_prop_exprs]; try solve [apply does_cons1; silent].
      - eapply does_l_eq; [apply does_map with (g := fun _ => [])|now induction l]. intros; silent.
      - apply does_params.
      - now apply does_callbacks.
      - apply does_security.
      - apply does_body.
      - apply does_response.
    Qed.
    Lemma does_ops m r c l : Forall (all_op good) l -> does_l (expand_operation cp m r c l) (flat_map (op_prop_exprs false ce) l).
    Proof. intros H. revert m. induction H; intros m; cbn; [constructor|]. apply does_app; [now apply does_op|auto]. Qed.
    Lemma does_path_prop m r c p : all_path good p -> does_l (expand_path_prop cp m r c p) (path_prop_exprs false ce p).
    Proof.
      destruct p; cbn [all_path expand_path_prop path_prop_exprs]; intros H; try silent.
      - apply does_params.
      - apply does_app0; [silent|]. apply does_app1; [now apply does_ops|silent].
    Qed.
    Lemma does_path m r t d : all_decl good d -> does_s (expand_path seg cp m r t d) (path_exprs false ce d).
    Proof.
      intros H. constructor. apply does_app0; [silent|]. apply does_app0; [apply does_url|]. apply does_app1; [|silent].
      unfold path_exprs. generalize (1 :: m) as m'. induction H; intros m'; cbn; [constructor|]. apply does_app; [now apply does_path_prop|auto].
    Qed.
  End Nested.
  Lemma callbacks_good c : good (expand_callback_paths seg) (callback_exprs false false) c.
  Proof.
    induction c as [n ps IH|n ps IH] using xcallback_ind'; intros m r t; cbn [callback_exprs expand_callback_paths]; [reflexivity|].
    apply does_map. intros d Hd. rewrite Forall_forall in IH. now apply does_path, IH.
  Qed.
  Lemma decl_good (P : xcallback_decl -> Prop) d : (forall c, P c) -> all_decl P d.
  Proof.
    intros H. apply Forall_forall. intros [] _; cbn; auto. apply Forall_forall. intros [] _; cbn; auto. apply Forall_forall. auto.
  Qed.
  Lemma does_section m r s : does_l (expand_section seg m r s) (section_exprs false false s).
  Proof.
    destruct s; cbn [expand_section section_exprs];
      [apply does_info|apply does_tags|apply does_servers|apply does_schemes|].
    apply does_cons1. constructor. apply does_map. intros d _. apply does_path. apply decl_good. apply callbacks_good.
  Qed.
  Lemma does_api x : does_e (expand_api seg x) (evaluated x).
  Proof.
    unfold expand_api, evaluated, exprs. eapply does_e_eq; [constructor|].
    - apply does_cons0; [silent|]. generalize [1] as m. generalize (Id (u "result") [0]) as r. intros r.
      instantiate (1 := flat_map (section_exprs false false) x).
      induction x as [|s x IH]; intros m; cbn; [constructor|]. apply does_app; [apply does_section|apply IH].
    - constructor.
    - apply app_nil_r.
  Qed.
End Expand.

(** ** An invocation *)
Section Api.
  Variable E : env.
  Variable fuel : nat.
  Variable reason : N -> option str.
  Variable imported : bool.
  Variable seg : list tree -> option segment.
  Theorem trace_prefix answer s x o h : trace_api E fuel reason imported answer seg s x = (o, h) ->
    exists rest, evaluated x = h ++ rest /\ (forall d, o = Done d -> rest = []) /\
      (forall a e b, h = a ++ e :: b -> b <> [] \/ (exists d, o = Done d) -> exists sc, answer a e sc <> None) /\
      (forall a e, h = a ++ [e] -> (forall sc, answer a e sc = None) -> o = Panicked).
  Proof.
    unfold trace_api. intros H.
    destruct (code_does E fuel reason imported answer) as (He & _).
    assert (Hd : does answer (now (v, _) <- teval E fuel reason imported answer (expand_api seg x) (map (fun b => (Id (fst b) [], snd b)) s);
      match v with XOpg d => ret d | _ => out Rejected end) (evaluated x)).
    { apply does_bind0; [apply He, does_api|]. intros [v e]. destruct v; first [apply does_ret|apply does_out]. }
    destruct (Hd []) as (t & r & H1 & H2 & H3 & H4 & H5). rewrite H in H1, H3, H5. cbn in H1, H3, H5. subst t. exists r.
    split; [exact H2|]. split; [intros d Hd'; now apply (H3 d)|]. split; [|exact H5].
    intros a e b Ht [Hb|[d Ho]]; [now apply (H4 a e b)|]. now apply (proj2 (H3 d Ho) a e b).
  Qed.
  Theorem trace_pure answer s x : (forall h e sc, answer h e sc = Some (e sc)) ->
    fst (trace_api E fuel reason imported answer seg s x) = run_api E fuel reason imported seg s x.
  Proof.
    intros Hp. unfold trace_api, run_api. apply same_bind.
    - now apply (proj1 (code_same E fuel reason imported answer Hp) _ _ (does_api seg x)).
    - intros [v e]. destruct v; first [apply same_ret|apply same_out].
  Qed.
End Api.
