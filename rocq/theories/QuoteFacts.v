(** Running the quoted code: proofs. *)
From Verif Require Import Quote.
From Coq Require Import Lia.

Lemma obind_assoc {A B C} (x : out A) (f : A -> out B) (g : B -> out C) : obind (obind x f) g = obind x (fun a => obind (f a) g).
Proof. now destruct x. Qed.

(** one step of evaluation *)
Section Steps.
  Variable eval_expr : str -> str.
  Variable call : callee -> list value -> components -> out (value * components).
  Notation ev := (eval eval_expr call). Notation ex := (exec eval_expr call).
  Lemma exec_let x e s : ex (SLet x e) s = obind (ev e s) (fun '(v, s1) => Val ((x, v) :: fst s1, snd s1)).
  Proof. reflexivity. Qed.
  Lemma exec_under e s : ex (SLetUnder e) s = obind (ev e s) (fun '(_, s1) => Val s1).
  Proof. reflexivity. Qed.
  Lemma exec_expr e s : ex (SExpr e) s = obind (ev e s) (fun '(_, s1) => Val s1).
  Proof. reflexivity. Qed.
  Lemma eval_on_var x m args s : on_place m = true -> ev (EMeth (EVar x) m args) s =
    obind (eval_list ev args s) (fun '(vs, s1) => obind (known (look x (fst s1))) (fun v =>
      obind (known (apply_mut m v vs)) (fun '(a, v') => Val (a, (assign x v' (fst s1), snd s1))))).
  Proof. intros H. cbn [eval]. now rewrite H. Qed.
  Lemma eval_meth r m args s : on_place m = false -> ev (EMeth r m args) s =
    obind (ev r s) (fun '(v, s1) => obind (eval_list ev args s1) (fun '(vs, s2) =>
      obind (known (apply_meth eval_expr m v vs)) (fun a => Val (a, s2)))).
  Proof. intros H. cbn [eval]. now rewrite H. Qed.
  Lemma eval_on_schemas x m args s : on_place m = true -> ev (EMeth (ESchemas x) m args) s =
    obind (eval_list ev args s) (fun '(vs, s1) => match look x (fst s1) with
      | Some VlCx => obind (known (apply_schemas m vs (snd s1))) (fun '(a, cx') => Val (a, (fst s1, cx')))
      | _ => Wrong end).
  Proof. intros H. cbn [eval]. now rewrite H. Qed.
  Lemma eval_trait t f args s : ev (ETrait t f args) s =
    obind (eval_list ev args s) (fun '(vs, s1) => obind (call (Of t f) vs (snd s1)) (fun '(a, cx') => Val (a, (fst s1, cx')))).
  Proof. reflexivity. Qed.
  Lemma eval_ctor c args s : ev (ECtor c args) s =
    obind (eval_list ev args s) (fun '(vs, s1) => obind (known (construct c vs)) (fun v => Val (v, s1))).
  Proof. reflexivity. Qed.
  Lemma eval_var x v s : look x (fst s) = Some v -> ev (EVar x) s = Val (v, s).
  Proof. intros H. cbn [eval]. now rewrite H. Qed.
  Lemma eval_list_nil s : eval_list ev [] s = Val ([], s).
  Proof. reflexivity. Qed.
  Lemma eval_list_cons e l s : eval_list ev (e :: l) s =
    obind (ev e s) (fun '(v, s1) => obind (eval_list ev l s1) (fun '(vs, s2) => Val (v :: vs, s2))).
  Proof. reflexivity. Qed.
  Lemma eval_match c p g e1 e2 s : ev (EMatch c p (Some g) e1 e2) s =
    obind (ev c s) (fun '(v, s1) => match matches p v with
      | None => ev e2 s1
      | Some b => obind (ev g (b ++ fst s1, snd s1)) (fun '(gv, s2) => match gv with
          | VlBool true => obind (ev e1 s2) (fun '(a, s3) => Val (a, (leave (fst s1) (fst s3), snd s3)))
          | VlBool false => ev e2 (leave (fst s1) (fst s2), snd s2)
          | _ => Wrong end)
      end).
  Proof. reflexivity. Qed.
  Lemma eval_if_let p c e s : ev (EIfLet p c e) s =
    obind (ev c s) (fun '(v, s1) => match matches p v with
      | Some b => obind (ev e (b ++ fst s1, snd s1)) (fun '(a, s2) => Val (a, (leave (fst s1) (fst s2), snd s2)))
      | None => Val (VlUnit, s1) end).
  Proof. reflexivity. Qed.
  Lemma eval_if c e s : ev (EIf c e) s =
    obind (ev c s) (fun '(v, s1) => match v with VlBool true => ev e s1 | VlBool false => Val (VlUnit, s1) | _ => Wrong end).
  Proof. reflexivity. Qed.
  Lemma eval_not e s : ev (ENot e) s = obind (ev e s) (fun '(v, s1) => match v with VlBool b => Val (VlBool (negb b), s1) | _ => Wrong end).
  Proof. reflexivity. Qed.
  Lemma eval_ref e s : ev (ERef e) s = ev e s.
  Proof. reflexivity. Qed.
  Lemma eval_block ss e s : ev (EBlock ss e) s =
    obind (exec_list ex ss s) (fun s1 => obind (ev e s1) (fun '(v, s2) => Val (v, (leave (fst s) (fst s2), snd s2)))).
  Proof. reflexivity. Qed.
End Steps.

Section Sim.
  Variable eval_expr : str -> str.
  (** what a call does, seen more and more of *)
  Variable call : nat -> callee -> list value -> components -> out (value * components).
  Variable E : env.
  Variable gs : ty -> components -> res (model * components).
  (** how what the code does and what the model says are compared *)
  Variable R : forall A B, (A -> B -> Prop) -> (nat -> out A) -> res B -> Prop.
  Arguments R {A B} _ _ _.
  Hypothesis R_ret : forall A B (Q : A -> B -> Prop) a b, Q a b -> R Q (fun _ => Val a) (Ok b).
  Hypothesis R_bind : forall A B A' B' (Q : A -> B -> Prop) (Q' : A' -> B' -> Prop) o r (f : nat -> A -> out A') g,
    R Q o r -> (forall a b, Q a b -> R Q' (fun k => f k a) (g b)) -> R Q' (fun k => obind (o k) (f k)) (bind r g).
  Hypothesis R_ext : forall A B (Q : A -> B -> Prop) o o' r, (forall k, o' k = o k) -> R Q o r -> R Q o' r.
  Definition gives {X} (enc : X -> value) (a : value * components) (b : X * components) : Prop := a = (enc (fst b), snd b).
  Hypothesis R_mention : forall t i p cx,
    R (gives VlRef) (fun k => call k (Mention t) [VlCx; VlBool i; VlParams p] cx) (mention_schema E gs t i p cx).
  Hypothesis R_with : forall t p cx,
    R (gives VlModel) (fun k => call k (Of t T_get_schema_with_params) [VlCx; VlParams p] cx) (get_schema_with_params gs t p cx).

  Notation ev k := (eval eval_expr (call k)).
  Definition pure (e : expr) (v : value) : Prop := forall k s, ev k e s = Val (v, s).
  Definition leaves {X} (enc : X -> value) (fr : frame) (a : value * state) (b : X * components) : Prop :=
    a = (enc (fst b), (fr, snd b)).
  Definition sim {X} (enc : X -> value) (e : expr) (r : components -> res (X * components)) : Prop :=
    forall fr cx, look V_cx fr = Some VlCx -> R (leaves enc fr) (fun k => ev k e (fr, cx)) (r cx).

  Notation er := (eval_r E gs). Notation em := (eval_m E gs). Notation ed := (eval_d E gs). Notation et := (eval_t E gs).

  Ltac flat := repeat rewrite obind_assoc; cbn [obind].
  Ltac advance H := eapply R_bind; [apply H; assumption|]; intros ? [? ?] ->; cbn [fst snd].
  Ltac norm tac := eapply R_ext; [intros k; let rhs := fresh in match goal with |- _ = ?r => set (rhs := r) end; tac; subst rhs; reflexivity|]; cbv beta.

  (** ** Constants *)
  Lemma pure_owned x : pure (owned x) (VlStr x).
  Proof. now intros k s. Qed.
  Lemma pure_ctor0 c v : construct c [] = Some v -> pure (ECtor c []) v.
  Proof. intros H k s. cbn. now rewrite H. Qed.
  Lemma pure_ctor1 c e v w : pure e v -> construct c [v] = Some w -> pure (ECtor c [e]) w.
  Proof. intros He H k s. cbn [eval eval_list]. rewrite He. cbn [obind]. rewrite H. reflexivity. Qed.
  Lemma pure_option_string o : pure (option_string o) (VlOpt (option_map VlStr o)).
  Proof. now destruct o. Qed.
  Lemma pure_option_bool o : pure (option_bool o) (VlOpt (option_map VlBool o)).
  Proof. now destruct o. Qed.
  Lemma pure_option_example o : pure (option_to_string_expr o) (VlOpt (option_map VlStr (example_value eval_expr o))).
  Proof. now destruct o as [[|]|]. Qed.
  Lemma pure_names l : pure (q_names l) (VlVec (map VlStr l)).
  Proof.
    intros k s. cbn [q_names eval].
    assert (H : eval_list (ev k) (map owned l) s = Val (map VlStr l, s)).
    { induction l as [|x l IH]; cbn [map eval_list]; [reflexivity|]. rewrite pure_owned. cbn [obind]. now rewrite IH. }
    now rewrite H.
  Qed.
  Lemma pure_simple f e of oe : pure f (VlOpt (option_map VlStr of)) -> pure e (VlOpt (option_map VlStr oe)) ->
    pure (q_simple f e) (VlSimple {| ms_format := of; ms_example := oe |}).
  Proof. intros Hf He k s. cbn [q_simple eval eval_fields]. rewrite Hf. cbn [obind]. rewrite He. now destruct of, oe. Qed.
  Lemma all_strs l : all_values as_str (map VlStr l) = Some l.
  Proof. induction l as [|x l IH]; cbn; [reflexivity|now rewrite IH]. Qed.
  Lemma as_opt_str o : as_option as_str (VlOpt (option_map VlStr o)) = Some o.
  Proof. now destruct o. Qed.
  Lemma pure_string v d ov sd : pure v (VlOpt (option_map (fun l => VlVec (map VlStr l)) ov)) -> pure d (VlSimple sd) ->
    pure (q_string v d) (VlDesc (TdString {| mst_variants := ov; mst_data := sd |})).
  Proof.
    intros Hv Hd k s. cbn [q_string eval eval_list eval_fields]. rewrite Hv. cbn [obind]. rewrite Hd. cbn [obind].
    destruct ov as [l|]; cbn -[all_values]; [rewrite all_strs|]; reflexivity.
  Qed.
  Lemma pure_extracted o : pure (extracted o) (VlOpt (option_map VlStr o)).
  Proof. now destruct o. Qed.

  (** the parameters *)
  Definition params_of (p : cparams) : params :=
    Build_params (cp_description p) (cp_nullable p) None (cp_format p) (example_value eval_expr (cp_example p)).
  Lemma pure_tokenize p : pure (tokenize p) (VlParams (params_of p)).
  Proof.
    intros k s. unfold tokenize. cbn [eval eval_fields eval_list]. rewrite pure_option_string. cbn [obind].
    rewrite pure_option_bool. cbn [obind known construct]. rewrite pure_option_string. cbn [obind]. rewrite pure_option_example. cbn [obind].
    destruct p as [d n f e]. unfold params_of. cbn [cp_description cp_nullable cp_format cp_example].
    now destruct d, n, f, (example_value eval_expr e).
  Qed.
  Lemma params_of_or p q : params_of (cp_or p q) = params_or (params_of p) (params_of q).
  Proof. destruct p as [[] n [] [[]|]], q as [[] m [] [[]|]]; reflexivity. Qed.
  Lemma params_of_cp_field a : params_of (cp_field a) = params_of_field eval_expr a.
  Proof. reflexivity. Qed.
  Lemma params_of_cp_variant a : params_of (cp_variant a) = params_of_variant eval_expr a.
  Proof. reflexivity. Qed.
  Lemma params_of_cp_container a : params_of (cp_container a) = params_of_container eval_expr a.
  Proof. reflexivity. Qed.

  (** ** Code with effects *)
  Lemma sim_model d e od dc : pure d (VlOpt (option_map VlStr od)) -> sim VlData e (ed dc) -> sim VlModel (q_model d e) (em (McModel od dc)).
  Proof.
    intros Hd He fr cx Hx. cbn [eval_m]. norm ltac:(cbn [q_model eval eval_fields]; rewrite Hd; cbn [obind]; flat).
    advance He. destruct od; now apply R_ret.
  Qed.
  Lemma sim_single n t tc : sim VlDesc t (et tc) -> sim VlData (q_single (EBool n) t) (ed (DcSingle n tc)).
  Proof. intros Ht fr cx Hx. cbn [eval_d]. norm ltac:(cbn [q_single eval eval_list eval_fields obind]; flat). advance Ht. now apply R_ret. Qed.
  Lemma all_refs l : all_values as_ref (map VlRef l) = Some l.
  Proof. induction l as [|x l IH]; cbn; [reflexivity|now rewrite IH]. Qed.
  Lemma sim_list {X} (cs : list X) (f : X -> components -> res (model_ref * components)) es :
    Forall2 (fun e c => sim VlRef e (f c)) es cs -> forall fr cx, look V_cx fr = Some VlCx ->
    R (fun a b => a = (map VlRef (fst b), (fr, snd b))) (fun k => eval_list (ev k) es (fr, cx)) (eval_vec f cs cx).
  Proof.
    induction 1 as [|e c es cs H1 _ IH]; intros fr cx Hx; cbn [eval_list eval_vec]; [now apply R_ret|].
    advance H1. eapply R_bind; [apply IH; assumption|]. intros ? [? ?] ->. now apply R_ret.
  Qed.
  Lemma sim_one_of es cs : Forall2 (fun e c => sim VlRef e (er c)) es cs -> sim VlData (q_one_of es) (ed (DcOneOf cs)).
  Proof.
    intros H fr cx Hx. cbn [eval_d]. norm ltac:(cbn [q_one_of eval eval_list eval_fields]; flat).
    eapply R_bind; [apply sim_list; eassumption|]. intros ? [? ?] ->. norm ltac:(cbn -[all_values]; rewrite all_refs). now apply R_ret.
  Qed.
  Lemma sim_const e c : pure e (VlDesc (const_td c)) -> sim VlDesc e (et (TcConst c)).
  Proof. intros H fr cx Hx. norm ltac:(rewrite H). now apply R_ret. Qed.
  Lemma sim_inline e c : sim VlModel e (em c) -> sim VlRef (ECtor C_Inline [e]) (er (RcInline c)).
  Proof. intros H fr cx Hx. cbn [eval_r]. norm ltac:(cbn [eval eval_list]; flat). advance H. now apply R_ret. Qed.
  Lemma sim_any : sim VlRef (ECtor C_Any []) (er RcAny).
  Proof. intros fr cx Hx. now apply R_ret. Qed.
  Lemma sim_mention t i pe p : pure pe (VlParams p) ->
    sim VlRef (EMention (EVar V_cx) t [EBool i; ERef pe]) (fun cx => mention_schema E gs t i p cx).
  Proof.
    intros Hp fr cx Hx. norm ltac:(cbn [eval eval_list fst]; rewrite Hx; cbn [known obind]; rewrite Hp; cbn [obind snd fst]).
    rewrite <- (match mention_schema E gs t i p cx as r return bind r Ok = r with Ok _ => eq_refl | Fuel => eq_refl end).
    eapply R_bind; [apply R_mention|]. intros ? [? ?] ->. now apply R_ret.
  Qed.
  Lemma sim_with t pe p : pure pe (VlParams p) ->
    sim VlModel (ETrait t T_get_schema_with_params [EVar V_cx; ERef pe]) (em (McSchemaWith t p)).
  Proof.
    intros Hp fr cx Hx. cbn [eval_m]. norm ltac:(cbn [eval eval_list fst]; rewrite Hx; cbn [known obind]; rewrite Hp; cbn [obind snd fst]).
    rewrite <- (match get_schema_with_params gs t p cx as r return bind r Ok = r with Ok _ => eq_refl | Fuel => eq_refl end).
    eapply R_bind; [apply R_with|]. intros ? [? ?] ->. now apply R_ret.
  Qed.
  Lemma sim_array e c : sim VlRef e (er c) ->
    sim VlDesc (ECtor C_Array [EStruct S_ModelArray [(Fd_items, EFun F_box_new [e])] false]) (et (TcArray c)).
  Proof. intros H fr cx Hx. cbn [eval_t]. norm ltac:(cbn [eval eval_list eval_fields]; flat). advance H. now apply R_ret. Qed.
  Lemma sim_dict e c : sim VlRef e (er c) ->
    sim VlDesc (ECtor C_Object [EStruct S_ModelObject [(Fd_additional_properties, ECtor C_Some [EFun F_box_new [e]])] true]) (et (TcDict c)).
  Proof. intros H fr cx Hx. cbn [eval_t]. norm ltac:(cbn [eval eval_list eval_fields]; flat). advance H. now apply R_ret. Qed.

  Lemma leave_app l fr : leave fr (l ++ fr) = fr.
  Proof.
    unfold leave. rewrite app_length. replace (length l + length fr - length fr) with (length l) by lia.
    now rewrite skipn_app, skipn_all, PeanoNat.Nat.sub_diag.
  Qed.
  Lemma leave1 a fr : leave fr (a :: fr) = fr.
  Proof. apply (leave_app [a]). Qed.
  Lemma leave2 a b fr : leave fr (a :: b :: fr) = fr.
  Proof. apply (leave_app [a; b]). Qed.
  (** ** Objects *)
  Definition enc_map (m : bmap str model_ref) : bmap str value := map (fun kv => (fst kv, VlRef (snd kv))) m.
  Lemma enc_insert k r m : bm_insert k (VlRef r) (enc_map m) = enc_map (bm_insert k r m).
  Proof. unfold enc_map. induction m as [|[k' r'] m IH]; cbn; [reflexivity|]. destruct (kcmp k k'); cbn; congruence. Qed.
  Lemma all_entry_refs m : all_entries as_ref (enc_map m) = Some m.
  Proof. induction m as [|[k r] m IH]; cbn; [reflexivity|]. unfold enc_map in IH. now rewrite IH. Qed.

  Definition prop_stmts (name : str) (e : expr) (req : bool) : list stmt :=
    [SExpr (EMeth (EVar V_properties) M_insert [owned name; e]);
     if req then SExpr (EMeth (EVar V_required) M_push [owned name]) else SEmpty].
  Definition with_object (props : bmap str model_ref) (req : list str) (fr : frame) : frame :=
    (V_required, VlVec (map VlStr req)) :: (V_properties, VlMap (enc_map props)) :: fr.
  Notation ex k := (exec eval_expr (call k)).
  Lemma exec_app k a b s : exec_list (ex k) (a ++ b) s = obind (exec_list (ex k) a s) (exec_list (ex k) b).
  Proof. revert s. induction a as [|st a IH]; intros s; cbn [app exec_list obind]; [reflexivity|]. rewrite obind_assoc.
    destruct (ex k st s); cbn [obind]; auto. Qed.
  Lemma sim_stmts sss cs :
    Forall2 (fun ss (c : str * rcode * bool) => exists e, ss = prop_stmts (fst (fst c)) e (snd c) /\ sim VlRef e (er (snd (fst c)))) sss cs ->
    forall fr props req cx, look V_cx fr = Some VlCx ->
    R (fun a b => a = (with_object (fst (fst b)) (snd (fst b)) fr, snd b))
      (fun k => exec_list (ex k) (concat sss) (with_object props req fr, cx)) (eval_stmts er cs props req cx).
  Proof.
    induction 1 as [|ss [[name rc] q] sss cs (e & -> & He) _ IH]; intros fr props req cx Hx; cbn [concat eval_stmts]; [now apply R_ret|].
    cbn [fst snd] in *. norm ltac:(rewrite exec_app; unfold prop_stmts; cbn [exec_list]; rewrite exec_expr, eval_on_var by reflexivity; cbn [eval_list]; rewrite pure_owned; cbn [obind]; flat).
    eapply R_bind; [apply He; exact Hx|]. intros ? [r cx1] ->. cbn [obind fst snd].
    change (look V_properties (with_object props req fr)) with (Some (VlMap (enc_map props))). cbn [known obind apply_mut].
    rewrite enc_insert. specialize (IH fr (bm_insert name r props) (if q then req ++ [name] else req) cx1 Hx).
    destruct q; cbn [exec eval on_place eval_list]; [|exact IH].
    unfold with_object in IH. rewrite map_app in IH. exact IH.
  Qed.
  Lemma sim_object sss cs :
    Forall2 (fun ss (c : str * rcode * bool) => exists e, ss = prop_stmts (fst (fst c)) e (snd c) /\ sim VlRef e (er (snd (fst c)))) sss cs ->
    sim VlDesc (EBlock (new_object ++ concat sss) object_desc) (et (TcObject cs)).
  Proof.
    intros H fr cx Hx. cbn [eval_t]. norm ltac:(rewrite eval_block, exec_app; unfold new_object; cbn [exec_list]; repeat rewrite exec_let; cbn [eval eval_list obind known apply_fun fst snd]).
    eapply R_bind; [apply (sim_stmts _ _ H fr [] []); exact Hx|].
    intros ? [[props req] cx1] ->. cbn [fst snd]. unfold object_desc.
    norm ltac:(cbn -[all_values all_entries leave]; rewrite all_entry_refs, all_strs; cbn -[leave]; unfold with_object; rewrite leave2). now apply R_ret.
  Qed.

  (** ** Internally tagged variants *)
  Lemma pure_tag_name ident vn : pure
    (q_model (ECtor C_Some [EFormat (u "{} type variant") [EStr ident]])
       (q_single (EBool false)
          (q_string (ECtor C_Some [EVec [owned vn]]) (q_simple (ECtor C_None []) (ECtor C_Some [owned vn])))))
    (VlModel (mk_single (Some (ident ++ u " type variant")) false
       (TdString {| mst_variants := Some [vn]; mst_data := mk_simple None (Some vn) |}))).
  Proof. now intros k s. Qed.
  Lemma sim_tagged e c tag vn ident n : sim VlModel e (em c) -> sim VlRef (merge_tag e tag vn ident n) (er (RcTagged c tag vn ident n)).
  Proof.
    intros H fr cx Hx. unfold merge_tag. cbn [eval_r]. norm ltac:(rewrite eval_block; cbn [exec_list]; rewrite exec_let; flat). advance H.
    destruct (try_merge m (tag_model tag vn ident n)) as [m' ok] eqn:Et.
    norm ltac:(cbn -[leave tag_model try_merge];
      rewrite leave1; cbn -[leave tag_model try_merge];
      (match goal with |- context [try_merge m ?x] => change x with (tag_model tag vn ident n) end);
      rewrite Et; cbn -[leave]; rewrite leave2). now apply R_ret.
  Qed.

  (** ** The functions of opg.rs, one by one *)
  Definition both {Y X} (Q : Y -> X -> Prop) (a : option Y) (b : option X) : Prop :=
    match a, b with Some x, Some y => Q x y | None, None => True | _, _ => False end.
  Lemma both_map {Y X Y' X'} (Q : Y -> X -> Prop) (Q' : Y' -> X' -> Prop) f g a b :
    both Q a b -> (forall x y, Q x y -> Q' (f x) (g y)) -> both Q' (option_map f a) (match b with Some y => Some (g y) | None => None end).
  Proof. destruct a, b; cbn; auto. Qed.
  Lemma both_all {Z Y X} (Q : Y -> X -> Prop) (f : Z -> option Y) (g : Z -> option X) l :
    (forall z, In z l -> both Q (f z) (g z)) -> both (Forall2 Q) (try_map f l) (try_map g l).
  Proof.
    induction l as [|z l IH]; intros H; cbn [try_map]; [constructor|].
    pose proof (H z (or_introl eq_refl)) as Hz. specialize (IH (fun z' Hin => H z' (or_intror Hin))).
    destruct (f z), (g z); cbn in *; try contradiction; auto.
    destruct (try_map f l), (try_map g l); cbn in *; try contradiction; auto.
  Qed.
  Notation sr := (fun e c => sim VlRef e (er c)). Notation sm := (fun e c => sim VlModel e (em c)). Notation st := (fun e c => sim VlDesc e (et c)).

  Lemma newtype_model_sim n p t : both sm (newtype_model n p t) (Derive.newtype_model n (params_of p) t).
  Proof.
    unfold newtype_model, Derive.newtype_model.
    assert (Hs : pure (q_simple (option_string (cp_format p)) (option_to_string_expr (cp_example p)))
              (VlSimple {| ms_format := p_format (params_of p); ms_example := p_example (params_of p) |})).
    { apply pure_simple; [apply pure_option_string|apply pure_option_example]. }
    destruct t; cbn [option_map both]; try exact I.
    all: apply sim_model; [apply pure_option_string|apply sim_single; apply sim_const].
    - now apply pure_string.
    - eapply pure_ctor1; [apply Hs|reflexivity].
    - eapply pure_ctor1; [apply Hs|reflexivity].
    - now apply pure_ctor0.
  Qed.
  Lemma field_reference_sim p f i : both sr (field_model_reference p f i) (Derive.field_model_reference (params_of p) f i).
  Proof.
    unfold field_model_reference, Derive.field_model_reference. destruct (fa_explicit (f_attrs f)) as [[]|].
    1,2,3,4: eapply both_map; [apply newtype_model_sim|]; intros e c H; now apply sim_inline.
    - apply sim_any.
    - cbn [both]. apply sim_mention, pure_tokenize.
  Qed.
  Lemma tuple_desc_sim fs inl inl' : (forall f, inl f = inl' f) ->
    both st (tuple_type_description fs inl) (Derive.tuple_type_description eval_expr fs inl').
  Proof.
    intros Hi. unfold tuple_type_description, Derive.tuple_type_description. eapply both_map.
    - apply both_all. intros f _. rewrite Hi, <- params_of_cp_field. apply field_reference_sim.
    - intros es cs H. apply sim_array, sim_inline, sim_model; [now apply pure_ctor0|now apply sim_one_of].
  Qed.
  Lemma object_desc_sim fs inl inl' : (forall f, inl f = inl' f) ->
    both st (object_type_description fs inl) (Derive.object_type_description eval_expr fs inl').
  Proof.
    intros Hi. unfold object_type_description, Derive.object_type_description. eapply both_map.
    - apply (both_all (fun ss (c : str * rcode * bool) => exists e, ss = prop_stmts (fst (fst c)) e (snd c) /\ sim VlRef e (er (snd (fst c))))).
      intros f _. unfold property_stmts. pose proof (field_reference_sim (cp_field (f_attrs f)) f (inl f)) as H.
      rewrite params_of_cp_field, Hi in H. rewrite Hi. destruct (field_model_reference _ _ _), (Derive.field_model_reference _ _ _); cbn in *; auto.
      eexists. split; [reflexivity|exact H].
    - intros sss cs H. now apply sim_object.
  Qed.
  Lemma tuple_model_sim n d fs inl inl' : (forall f, inl f = inl' f) -> both sm (tuple_model n d fs inl) (Derive.tuple_model eval_expr n d fs inl').
  Proof.
    intros Hi. unfold tuple_model, Derive.tuple_model. eapply both_map; [now apply tuple_desc_sim|].
    intros e c H. apply sim_model; [apply pure_option_string|now apply sim_single].
  Qed.
  Lemma object_model_sim n d fs inl inl' : (forall f, inl f = inl' f) -> both sm (object_model n d fs inl) (Derive.object_model eval_expr n d fs inl').
  Proof.
    intros Hi. unfold object_model, Derive.object_model. eapply both_map; [now apply object_desc_sim|].
    intros e c H. apply sim_model; [apply pure_option_string|now apply sim_single].
  Qed.
  Lemma inline_sim e c : both sm e c -> both sr (option_map inline_reference e) (Derive.inline_reference c).
  Proof. intros H. unfold Derive.inline_reference. eapply both_map; [exact H|]. intros x y. apply sim_inline. Qed.

  Lemma names_desc_sim names : sim VlDesc (q_string (ECtor C_Some [q_names names]) (q_simple (ECtor C_None []) (option_string (hd_error names))))
    (et (TcConst (CdString {| mst_variants := Some names; mst_data := {| ms_format := None; ms_example := hd_error names |} |}))).
  Proof.
    apply sim_const. apply (pure_string _ _ (Some names)); [eapply pure_ctor1; [apply pure_names|reflexivity]|].
    apply (pure_simple _ _ None); [now apply pure_ctor0|apply pure_option_string].
  Qed.
  Lemma newtype_enum_sim c vs : sim VlModel (serialize_newtype_enum c vs) (em (Derive.serialize_newtype_enum c vs)).
  Proof.
    unfold serialize_newtype_enum, Derive.serialize_newtype_enum. destruct (ca_has_repr (c_attrs c)).
    - apply sim_model; [apply pure_option_string|]. apply sim_one_of. unfold serialised.
      induction (filter _ vs) as [|v l IH]; cbn [flat_map map app]; [constructor|]. destruct (v_discriminant v) as [d|]; [|exact IH].
      cbn [app map]. constructor; [|exact IH]. apply sim_inline. apply (sim_model _ _ (Some _)); [eapply pure_ctor1; [apply pure_owned|reflexivity]|].
      apply sim_single, sim_const. now intros k s.
    - apply sim_model; [apply pure_option_string|]. apply sim_single. apply names_desc_sim.
  Qed.
  Lemma newtype_variant_sim v : both sr (newtype_variant v) (Derive.newtype_variant eval_expr v).
  Proof.
    unfold newtype_variant, Derive.newtype_variant. destruct (v_fields v) as [|f l]; [exact I|].
    rewrite <- params_of_cp_field, <- params_of_cp_variant, <- params_of_or. apply field_reference_sim.
  Qed.
  Lemma untagged_variant_sim v : both sr (untagged_variant v) (Derive.untagged_variant eval_expr v).
  Proof.
    unfold untagged_variant, Derive.untagged_variant. destruct (v_style v); try exact I.
    - apply inline_sim. now apply object_model_sim.
    - apply newtype_variant_sim.
  Qed.
  Lemma adjacent_variant_sim v : both sr (adjacent_variant v) (Derive.adjacent_variant eval_expr v).
  Proof.
    unfold adjacent_variant, Derive.adjacent_variant. destruct (v_style v); try exact I.
    - apply inline_sim. apply tuple_model_sim. intros f. apply Bool.orb_comm.
    - apply inline_sim. now apply tuple_model_sim.
    - apply newtype_variant_sim.
  Qed.
  Lemma external_variant_sim v : both sr (external_variant v) (Derive.external_variant eval_expr v).
  Proof.
    unfold external_variant, Derive.external_variant. destruct (v_style v).
    - apply inline_sim. now apply object_model_sim.
    - apply inline_sim. now apply tuple_model_sim.
    - apply newtype_variant_sim.
    - cbn [both]. unfold names_model. apply sim_inline, sim_model; [apply pure_option_string|]. apply sim_single.
      apply (names_desc_sim [variant_name v]).
  Qed.
  Lemma internal_model_sim v : both sm (internal_model v) (Derive.internal_model eval_expr v).
  Proof.
    unfold internal_model, Derive.internal_model. destruct (v_style v); try exact I.
    - now apply object_model_sim.
    - destruct (v_fields v) as [|f l]; [exact I|]. cbn [both].
      rewrite <- params_of_cp_field, <- params_of_cp_variant, <- params_of_or. apply sim_with, pure_tokenize.
    - now apply object_model_sim.
  Qed.
  Lemma untagged_sim c vs : both sm (serialize_untagged_enum c vs) (Derive.serialize_untagged_enum eval_expr c vs).
  Proof.
    unfold serialize_untagged_enum, Derive.serialize_untagged_enum. eapply both_map; [apply both_all; intros v _; apply untagged_variant_sim|].
    intros es cs H. apply sim_model; [apply pure_option_string|now apply sim_one_of].
  Qed.
  Lemma internal_sim c vs tag : both sm (serialize_internal_tagged_enum c vs tag) (Derive.serialize_internal_tagged_enum eval_expr c vs tag).
  Proof.
    unfold serialize_internal_tagged_enum, Derive.serialize_internal_tagged_enum. eapply both_map.
    - apply (both_all sr). intros v _. unfold internal_variant. eapply both_map; [apply internal_model_sim|].
      intros e m H. now apply sim_tagged.
    - intros es cs H. apply sim_model; [apply pure_option_string|now apply sim_one_of].
  Qed.
  Lemma external_sim c vs : both sm (serialize_external_tagged_enum c vs) (Derive.serialize_external_tagged_enum eval_expr c vs).
  Proof.
    unfold serialize_external_tagged_enum, Derive.serialize_external_tagged_enum. eapply both_map; [apply both_all; intros v _; apply external_variant_sim|].
    intros es cs H. apply sim_model; [apply pure_option_string|]. apply sim_single, sim_dict, sim_inline, sim_model; [apply pure_option_string|now apply sim_one_of].
  Qed.
  Lemma adjacent_sim c vs tag content : both sm (serialize_adjacent_tagged_enum c vs tag content) (Derive.serialize_adjacent_tagged_enum eval_expr c vs tag content).
  Proof.
    unfold serialize_adjacent_tagged_enum, Derive.serialize_adjacent_tagged_enum. eapply both_map; [apply both_all; intros v _; apply adjacent_variant_sim|].
    intros es cs H. apply sim_model; [apply pure_option_string|]. apply sim_single.
    match goal with |- context [EBlock (new_object ++ [SExpr (EMeth _ _ [_; ?a]); _; SExpr (EMeth _ _ [_; ?b]); _]) object_desc] =>
      apply (sim_object [prop_stmts tag a true; prop_stmts content b true]) end.
    constructor; [|constructor; [|constructor]].
    - eexists. split; [reflexivity|]. cbn [fst snd]. apply sim_inline, (sim_model _ _ (Some _)); [now intros k s|]. apply sim_single, names_desc_sim.
    - eexists. split; [reflexivity|]. cbn [fst snd]. apply sim_inline, sim_model; [apply pure_option_string|now apply sim_one_of].
  Qed.
  Lemma body_sim c : both sm (serialize_body c) (Derive.serialize_body eval_expr c).
  Proof.
    unfold serialize_body, Derive.serialize_body. destruct (c_data c) as [vs|[] fs]; try exact I.
    - unfold serialize_enum, Derive.serialize_enum. destruct (ca_model_kind (c_attrs c)).
      + cbn [both]. apply newtype_enum_sim.
      + destruct (ca_tag_type (c_attrs c)); try exact I. apply adjacent_sim.
      + destruct (ca_tag_type (c_attrs c)); try exact I; [apply internal_sim|apply untagged_sim].
      + apply external_sim.
    - unfold serialize_struct, Derive.serialize_struct. eapply both_map; [now apply object_desc_sim|].
      intros e t H. apply sim_model; [apply pure_option_string|now apply sim_single].
    - unfold serialize_tuple_struct, Derive.serialize_tuple_struct. eapply both_map; [now apply tuple_desc_sim|].
      intros e t H. apply sim_model; [apply pure_option_string|now apply sim_single].
    - destruct fs as [|f fs]; [exact I|]. unfold serialize_newtype_struct, Derive.serialize_newtype_struct.
      rewrite <- params_of_cp_field, <- params_of_cp_container, <- params_of_or.
      destruct (ca_explicit (c_attrs c)) as [[]|]; try exact I; try apply newtype_model_sim.
      cbn [both]. apply sim_with, pure_tokenize.
  Qed.

  (** ** Running a function *)
  Hypothesis R_gs : forall t cx, R (gives VlModel) (fun k => call k (Of t T_get_schema) [VlCx] cx) (gs t cx).
  Definition enc_name (o : option str) : value := VlOpt (option_map VlStr o).
  Definition name_is (t : ty) : Prop := forall cx, R (gives enc_name) (fun k => call k (Of t T_type_name) [] cx) (Ok (type_name E t, cx)).
  Definition run_fn (k : nat) (f : fn_code) (args : list value) (cx : components) : out (value * components) :=
    obind (known (bind_params (fn_params f) args)) (fun fr => obind (ev k (fn_body f) (fr, cx)) (fun '(v, s) => Val (v, snd s))).
  Lemma bind_ok {A} (r : res A) : bind r Ok = r.
  Proof. now destruct r. Qed.

  Lemma step_sim {X} (enc : X -> value) e (r : components -> res (X * components)) cx :
    sim enc e r -> R (gives enc) (fun k => run_fn k {| fn_params := [Some V_cx]; fn_body := e |} [VlCx] cx) (r cx).
  Proof.
    intros H. rewrite <- (bind_ok (r cx)). eapply (R_bind _ _ _ _ _ _ (fun k => ev k e ([(V_cx, VlCx)], cx)) _ (fun k '(v, s) => Val (v, snd s))).
    - now apply H.
    - intros ? [? ?] ->. now apply R_ret.
  Qed.
  Ltac steps := repeat first [rewrite eval_ctor | rewrite eval_meth by reflexivity | rewrite eval_trait | rewrite eval_list_cons | rewrite eval_list_nil
    | erewrite eval_var by reflexivity | rewrite obind_assoc | progress cbn [obind fst snd]].
  Lemma step_with t p cx : R (gives VlModel) (fun k => run_fn k (with_params_fn t) [VlCx; VlParams p] cx) (get_schema_with_params gs t p cx).
  Proof.
    unfold get_schema_with_params.
    norm ltac:(unfold run_fn; cbn [with_params_fn fn_params fn_body bind_params option_map known obind]; steps).
    eapply R_bind; [apply R_gs|]. intros ? [m cx1] ->. now apply R_ret.
  Qed.
  (** the method of the types that are always inlined *)
  Lemma step_inline t i p cx : R (gives VlRef) (fun k => run_fn k (inline_fn t) [VlCx; VlBool i; VlParams p] cx)
    (bind (gs t cx) (fun '(m, cx') => Ok (Inline (apply_params p m), cx'))).
  Proof.
    norm ltac:(unfold run_fn; cbn [inline_fn fn_params fn_body bind_params option_map known obind]; steps).
    eapply R_bind; [apply R_gs|]. intros ? [m cx1] ->. now apply R_ret.
  Qed.
  (** the trait's own method *)
  Lemma step_select t i p cx : name_is t -> R (gives VlRef) (fun k => run_fn k (select_fn t) [VlCx; VlBool i; VlParams p] cx)
    (let inlined := bind (gs t cx) (fun '(m, cx') => Ok (Inline (apply_params p m), cx')) in
     match type_name E t with Some link => if i then inlined else Ok (Link link, cx) | None => inlined end).
  Proof.
    intros Hn. cbv zeta.
    change (R (gives VlRef) (fun k => run_fn k (select_fn t) [VlCx; VlBool i; VlParams p] cx)
      (bind (Ok (type_name E t, cx)) (fun '(name, cx) =>
         let inlined := bind (gs t cx) (fun '(m, cx') => Ok (Inline (apply_params p m), cx')) in
         match name with Some link => if i then inlined else Ok (Link link, cx) | None => inlined end))).
    norm ltac:(unfold run_fn; cbn [select_fn fn_params fn_body bind_params option_map known obind]; rewrite eval_match; steps).
    eapply R_bind; [apply Hn|]. intros ? [name cx1] ->. cbn [fst snd]. unfold enc_name. cbn [obind]. cbv zeta.
    assert (Hi : R (gives VlRef)
      (fun k => obind (ev k (ECtor C_Inline [EMeth (ETrait t T_get_schema [EVar V_cx]) M_apply_params [EVar V_params]])
                        ([(V_cx, VlCx); (V_inline, VlBool i); (V_params, VlParams p)], cx1)) (fun '(v, s) => Val (v, snd s)))
      (bind (gs t cx1) (fun '(m, cx') => Ok (Inline (apply_params p m), cx')))).
    { norm steps. eapply R_bind; [apply R_gs|]. intros ? [m cx2] ->. now apply R_ret. }
    destruct name as [link|]; cbn [option_map matches obind]; [|exact Hi].
    destruct i.
    - exact Hi.
    - now apply R_ret.
  Qed.
  Hypothesis R_select : forall t i p cx, R (gives VlRef) (fun k => call k (Of t T_select_reference) [VlCx; VlBool i; VlParams p] cx)
    (select_reference E gs t i p cx).
  Lemma step_mention t i p cx : R (gives VlRef) (fun k => run_fn k (mention_fn t) [VlCx; VlBool i; VlParams p] cx) (mention_schema E gs t i p cx).
  Proof.
    unfold mention_schema.
    norm ltac:(unfold run_fn; cbn [mention_fn fn_params fn_body bind_params option_map known obind];
      rewrite eval_block; cbn [exec_list]; rewrite exec_let; steps).
    eapply R_bind; [apply R_select|]. intros ? [r cx1] ->. cbn [fst snd].
    norm ltac:(steps; rewrite exec_expr, eval_if_let, eval_ref; steps).
    destruct r as [l|m|]; cbn [matches obind]; [|now apply R_ret|now apply R_ret].
    norm ltac:(rewrite eval_if, eval_not, eval_on_schemas by reflexivity; steps; cbn [app look var_beq known apply_schemas]; steps).
    destruct (bm_mem l (cx_schemas cx1)); cbn [negb]; [now apply R_ret|].
    norm ltac:(rewrite eval_block; cbn [exec_list]; rewrite exec_let; steps).
    eapply R_bind; [apply R_gs|]. intros ? [m cx2] ->. cbn [fst snd].
    norm ltac:(steps; rewrite exec_expr, eval_on_schemas by reflexivity; steps).
    now apply R_ret.
  Qed.

  (** ** The impls *)
  (** [P] holds the impls that the derive writes for the types that [E] describes *)
  Definition written (P : tid -> impl_code) : Prop := forall id, exists c b,
    serialize_body c = Some b /\ Derive.serialize_body eval_expr c = Some (td_body (E id)) /\
    P id = implement_type (TNamed id) (c_ident c) b (ca_inline (c_attrs c)) /\
    td_ident (E id) = c_ident c /\ td_inline (E id) = ca_inline (c_attrs c).
  Variable P : tid -> impl_code.
  Hypothesis HP : written P.

  Lemma pure_prim p : pure (prim_code p) (VlModel (prim_schema p)).
  Proof. intros k s. now destruct p. Qed.
  Lemma sim_mention_arg t : sim VlRef (mention_arg t) (er (RcMention t false params_default)).
  Proof. apply sim_mention. now intros k s. Qed.
  Lemma sim_array_of t : sim VlModel (q_model (ECtor C_None []) (q_single (EBool false)
      (ECtor C_Array [EStruct S_ModelArray [(Fd_items, EFun F_box_new [mention_arg t])] false])))
    (em (McModel None (DcSingle false (TcArray (RcMention t false params_default))))).
  Proof. apply sim_model; [now intros k s|]. apply sim_single, sim_array, sim_mention_arg. Qed.
  Lemma sim_dict_of t : sim VlModel (q_model (ECtor C_None []) (q_single (EBool false)
      (ECtor C_Object [EStruct S_ModelObject [(Fd_additional_properties, ECtor C_Some [EFun F_box_new [mention_arg t]])] true])))
    (em (McModel None (DcSingle false (TcDict (RcMention t false params_default))))).
  Proof. apply sim_model; [now intros k s|]. apply sim_single, sim_dict, sim_mention_arg. Qed.
  Lemma sim_items ts : sim VlModel (q_model (ECtor C_None []) (q_one_of (map mention_arg ts)))
    (em (McModel None (DcOneOf (map (fun t => RcMention t false params_default) ts)))).
  Proof.
    apply sim_model; [now intros k s|]. apply sim_one_of.
    induction ts as [|t ts IH]; cbn [map]; constructor; [apply sim_mention_arg|exact IH].
  Qed.
  Lemma eval_vec_mentions ts cx :
    eval_vec er (map (fun t => RcMention t false params_default) ts) cx = eval_vec (fun t => mention_schema E gs t false params_default) ts cx.
  Proof. revert cx. induction ts as [|t ts IH]; intros cx; cbn; [reflexivity|]. destruct (mention_schema E gs t false params_default cx) as [[r cx1]|]; cbn; [|reflexivity]. now rewrite IH. Qed.
  Lemma sim_tuple ts : sim VlModel (fn_body (ic_get_schema (impl_of P (TTuple ts)))) (schema_step E gs (TTuple ts)).
  Proof.
    intros fr cx Hx. cbn [schema_step impl_of always_inline ic_get_schema fn_body].
    pose proof (sim_items ts fr cx Hx) as H. cbn [eval_m eval_d] in H. rewrite eval_vec_mentions in H.
    set (v := eval_vec _ ts cx) in *.
    replace (bind v (fun '(rs, cx') => Ok (mk_single None false (TdArray (Inline (Model None (OneOf rs)))), cx')))
      with (bind (bind (bind v (fun '(rs, cx') => Ok (OneOf rs, cx'))) (fun '(d, cx') => Ok (Model None d, cx')))
        (fun '(m, cx') => Ok (mk_single None false (TdArray (Inline m)), cx'))) by (now destruct v as [[]|]).
    norm ltac:(rewrite eval_block; cbn [exec_list]; rewrite exec_let; flat).
    eapply R_bind; [exact H|]. intros ? [m cx1] ->. cbn [fst snd].
    norm ltac:(cbn -[leave]; rewrite leave1). now apply R_ret.
  Qed.
  Lemma step_gs t cx : R (gives VlModel) (fun k => run_fn k (ic_get_schema (impl_of P t)) [VlCx] cx) (schema_step E gs t cx).
  Proof.
    destruct t as [p|w t|t|ts|q t|q t|id].
    - cbn [impl_of always_inline ic_get_schema schema_step].
      norm ltac:(unfold run_fn; cbn [fn_params fn_body bind_params known obind]; rewrite pure_prim). now apply R_ret.
    - cbn [impl_of ic_get_schema schema_step]. rewrite <- (bind_ok (gs t cx)).
      norm ltac:(unfold run_fn; cbn [fn_params fn_body bind_params option_map known obind]; steps).
      eapply R_bind; [apply R_gs|]. intros ? [m cx1] ->. now apply R_ret.
    - cbn [impl_of ic_get_schema]. apply (step_sim VlModel _ (schema_step E gs (TOption t))).
      apply (sim_with t (EStruct S_ContextParams [(Fd_nullable, ECtor C_Some [EBool true])] true) nullable_params). now intros k s.
    - apply (step_sim VlModel _ (schema_step E gs (TTuple ts))), sim_tuple.
    - replace (schema_step E gs (TSeq q t) cx) with (em (McModel None (DcSingle false (TcArray (RcMention t false params_default)))) cx)
        by (cbn; now destruct (mention_schema E gs t false params_default cx) as [[]|]).
      cbn [impl_of always_inline ic_get_schema]. apply (step_sim VlModel _ _), sim_array_of.
    - replace (schema_step E gs (TDict q t) cx) with (em (McModel None (DcSingle false (TcDict (RcMention t false params_default)))) cx)
        by (cbn; now destruct (mention_schema E gs t false params_default cx) as [[]|]).
      cbn [impl_of always_inline ic_get_schema]. apply (step_sim VlModel _ _), sim_dict_of.
    - cbn [impl_of schema_step]. destruct (HP id) as (c & b & Hb & Hm & -> & _ & _). cbn [implement_type ic_get_schema].
      apply (step_sim VlModel _ (em (td_body (E id)))). pose proof (body_sim c) as H. rewrite Hb, Hm in H. exact H.
  Qed.
  Lemma step_name t cx : match t with TWrap _ t' | TOption t' => name_is t' | _ => True end ->
    R (gives enc_name) (fun k => run_fn k (ic_type_name (impl_of P t)) [] cx) (Ok (type_name E t, cx)).
  Proof.
    intros Hn.
    assert (Hd : forall t', name_is t' -> R (gives enc_name) (fun k => run_fn k (name_of_fn t') [] cx) (Ok (type_name E t', cx))).
    { clear Hn. intros t' Hn. rewrite <- (bind_ok (Ok (type_name E t', cx))).
      norm ltac:(unfold run_fn, name_of_fn; cbn [fn_params fn_body bind_params known obind]; steps).
      eapply R_bind; [apply Hn|]. intros ? [n cx1] ->. now apply R_ret. }
    destruct t as [p|w t|t|ts|q t|q t|id]; try (now apply R_ret); [exact (Hd t Hn)|exact (Hd t Hn)|].
    cbn [impl_of type_name]. destruct (HP id) as (c & b & _ & _ & -> & -> & ->). cbn [implement_type ic_type_name].
    destruct (ca_inline (c_attrs c)); now apply R_ret.
  Qed.
  Lemma step_select_any t i p cx : name_is t ->
    R (gives VlRef) (fun k => run_fn k (match ic_select (impl_of P t) with Some f => f | None => select_fn t end) [VlCx; VlBool i; VlParams p] cx)
      (select_reference E gs t i p cx).
  Proof.
    intros Hn. unfold select_reference.
    destruct t as [q|w t|t|ts|q t|q t|id]; cbn [impl_of always_inline ic_select overrides_select]; try apply step_inline; try now apply step_select.
    destruct (HP id) as (c & b & _ & _ & Hp & _ & Hi). rewrite Hp, Hi. cbn [implement_type ic_select].
    destruct (ca_inline (c_attrs c)); [apply step_inline|now apply step_select].
  Qed.
End Sim.
