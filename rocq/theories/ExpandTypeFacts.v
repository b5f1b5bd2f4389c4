(** The code of [describe_type!] does what is described. *)
From Verif Require Import Str BMap Expand ExpandType ExpandTypeSpec.
Local Open Scope string_scope. Local Open Scope list_scope.

Section Ind.
  Variable P : xdescribe -> Prop.
  Variable Q : xvalue -> Prop.
  Hypothesis Hm : forall v, P (XtRawModel v).
  Hypothesis Ht : forall d v, P (XtRawType d v).
  Hypothesis Hs : forall d f e v, P (XtString d f e v).
  Hypothesis Hn : forall d f e, P (XtNumber d f e).
  Hypothesis Hi : forall d f e, P (XtInteger d f e).
  Hypothesis Hb : forall d, P (XtBoolean d).
  Hypothesis Ha : forall d i, Q i -> P (XtArray d i).
  Hypothesis Ho : forall d l, Forall (fun e => Q (snd e)) l -> P (XtObject d l).
  Hypothesis Hl : forall s, Q (XvLink s).
  Hypothesis Hv : forall v, Q (XvVar v).
  Hypothesis Hd : forall d, P d -> Q (XvInline d).
  Fixpoint xdescribe_ind' (d : xdescribe) : P d :=
    match d with
    | XtRawModel v => Hm v
    | XtRawType d v => Ht d v
    | XtString d f e v => Hs d f e v
    | XtNumber d f e => Hn d f e
    | XtInteger d f e => Hi d f e
    | XtBoolean d => Hb d
    | XtArray d i => Ha d i (xvalue_ind' i)
    | XtObject d l => Ho d l ((fix go l : Forall (fun e => Q (snd e)) l :=
        match l with [] => Forall_nil _ | e :: r => Forall_cons e (xvalue_ind' (snd e)) (go r) end) l)
    end
  with xvalue_ind' (v : xvalue) : Q v :=
    match v with XvLink s => Hl s | XvVar v => Hv v | XvInline d => Hd d (xdescribe_ind' d) end.
  Lemma xdescribe_both : (forall d, P d) /\ forall v, Q v.
  Proof. split; [exact xdescribe_ind'|exact xvalue_ind']. Qed.
End Ind.

(** ** What is said, with the variables of the caller only *)
Definition own (v : str) : ident := Id v [].
Definition say_properties (say : xvalue -> tframe -> option (describe_value * tframe)) :=
  fix go (l : list (str * bool * xvalue)) (e : tframe) : option (list (str * bool * describe_value) * tframe) :=
    match l with
    | [] => Some ([], e)
    | (k, req, v) :: l' =>
        match say v e with
        | Some (v', e1) => match go l' e1 with Some (r, e2) => Some ((k, req, v') :: r, e2) | None => None end
        | None => None
        end
    end.
Fixpoint say (d : xdescribe) (e : tframe) : option (describe * tframe) :=
  match d with
  | XtRawModel v => match move (own v) e with Some (VModel m, e') => Some (DtRawModel m, e') | _ => None end
  | XtRawType d v => match move (own v) e with Some (VData x, e') => Some (DtRawType d x, e') | _ => None end
  | XtString d f x v => Some (DtString d f x v, e)
  | XtNumber d f x => Some (DtNumber d f x, e)
  | XtInteger d f x => Some (DtInteger d f x, e)
  | XtBoolean d => Some (DtBoolean d, e)
  | XtArray d i => match say_value i e with Some (i', e') => Some (DtArray d i', e') | None => None end
  | XtObject d l => match say_properties say_value l e with Some (l', e') => Some (DtObject d l', e') | None => None end
  end
with say_value (v : xvalue) (e : tframe) : option (describe_value * tframe) :=
  match v with
  | XvLink s => Some (DvLink s, e)
  | XvVar v => match tlookup (own v) e with Some (Has (VText s)) => Some (DvLink s, e) | _ => None end
  | XvInline d => match say d e with Some (d', e') => Some (DvInline d', e') | None => None end
  end.

(** variables of the macro do not matter *)
Lemma own_not v n m : m <> [] -> own v <> Id n m.
Proof. intros H [= _ H']. now apply H. Qed.
Definition under {A} (b : ident * slot) (o : option (A * tframe)) : option (A * tframe) :=
  match o with Some (a, e) => Some (a, b :: e) | None => None end.
Lemma lookup_under v n m s e : m <> [] -> tlookup (own v) ((Id n m, s) :: e) = tlookup (own v) e.
Proof. intros H. cbn [tlookup]. destruct (ident_eq_dec (own v) (Id n m)) as [E|_]; [now apply own_not in E|reflexivity]. Qed.
Lemma move_under v n m s e : m <> [] -> move (own v) ((Id n m, s) :: e) = under (Id n m, s) (move (own v) e).
Proof.
  intros H. unfold move. rewrite lookup_under by assumption. destruct (tlookup (own v) e) as [[x|]|]; try reflexivity.
  cbn [tassign under]. destruct (ident_eq_dec (own v) (Id n m)) as [E|_]; [now apply own_not in E|reflexivity].
Qed.
Lemma say_under n m s : m <> [] ->
  (forall d e, say d ((Id n m, s) :: e) = under (Id n m, s) (say d e)) /\ forall v e, say_value v ((Id n m, s) :: e) = under (Id n m, s) (say_value v e).
Proof.
  intros Hm. apply xdescribe_both; intros; cbn [say say_value]; try reflexivity.
  - rewrite move_under by assumption. destruct (move (own v) e) as [[[] ?]|]; reflexivity.
  - rewrite move_under by assumption. destruct (move (own v) e) as [[[] ?]|]; reflexivity.
  - rewrite H. now destruct (say_value i e) as [[]|].
  - assert (Hl : forall e, say_properties say_value l ((Id n m, s) :: e) = under (Id n m, s) (say_properties say_value l e)).
    { clear e. induction H as [|[[k r] v] l Hv _ IH]; intros e; [reflexivity|]. cbn [say_properties]. cbn [snd] in Hv. rewrite Hv.
      destruct (say_value v e) as [[v' e1]|]; [|reflexivity]. cbn [under]. rewrite IH. now destruct (say_properties say_value l e1) as [[]|]. }
    rewrite Hl. now destruct (say_properties say_value l e) as [[]|].
  - rewrite lookup_under by assumption. destruct (tlookup (own v) e) as [[[] |]|]; reflexivity.
  - rewrite H. now destruct (say d e) as [[]|].
Qed.

(** nothing is declared that stays *)
Lemma assign_length x s e : length (tassign x s e) = length e.
Proof. induction e as [|[y t] e IH]; [reflexivity|]. cbn. destruct (ident_eq_dec x y); cbn; congruence. Qed.
Lemma move_length x e v e' : move x e = Some (v, e') -> length e' = length e.
Proof. unfold move. destruct (tlookup x e) as [[w|]|]; try discriminate. intros [= _ <-]. apply assign_length. Qed.
Lemma say_length : (forall d e d' e', say d e = Some (d', e') -> length e' = length e) /\
  forall v e v' e', say_value v e = Some (v', e') -> length e' = length e.
Proof.
  apply xdescribe_both; cbn [say say_value]; intros.
  - destruct (move (own v) e) as [[[] ?]|] eqn:E; try discriminate. injection H as _ <-. eapply move_length, E.
  - destruct (move (own v) e) as [[[] ?]|] eqn:E; try discriminate. injection H as _ <-. eapply move_length, E.
  - congruence.
  - congruence.
  - congruence.
  - congruence.
  - destruct (say_value i e) as [[]|] eqn:E; [|discriminate]. injection H0 as _ <-. eauto.
  - assert (Hl : forall e l' e', say_properties say_value l e = Some (l', e') -> length e' = length e).
    { clear - H. induction H as [|[[k r] v] l Hv _ IH]; intros e l' e' He; cbn [say_properties] in He; [congruence|]. cbn [snd] in Hv.
      destruct (say_value v e) as [[v' e1]|] eqn:E1; [|discriminate]. destruct (say_properties say_value l e1) as [[l1 e2]|] eqn:E2; [|discriminate].
      injection He as _ <-. rewrite (IH _ _ _ E2). eauto. }
    destruct (say_properties say_value l e) as [[]|] eqn:E; [|discriminate]. injection H0 as _ <-. eauto.
  - congruence.
  - destruct (tlookup (own v) e) as [[[]|]|]; congruence.
  - destruct (say d e) as [[]|] eqn:E; [|discriminate]. injection H0 as _ <-. eauto.
Qed.

(** ** The code does what is said *)
Definition code_ok (d : xdescribe) : Prop := forall m e, m <> [] ->
  eval_m (expand_type m d) e = match say d e with Some (d', e') => Some (describe_type d', e') | None => None end.
Definition value_ok (v : xvalue) : Prop := forall m e, m <> [] ->
  eval_r (expand_value m v) e = match say_value v e with Some (v', e') => Some (describe_value_ref v', e') | None => None end.

Lemma extract_tuple {A} (o : option A) : extract (tuple o) = o.
Proof. now destruct o. Qed.
Lemma tleave_two a b e e' : length e' = length e -> tleave e (a :: b :: e') = e'.
Proof. intros H. unfold tleave. cbn [length]. rewrite H. replace (S (S (length e)) - length e) with 2 by lia. reflexivity. Qed.
Lemma eval_block ss c e : eval_m (MBlock ss c) e =
  match run_stmts run ss e with
  | Some e1 => match eval_m c e1 with Some (m, e2) => Some (m, tleave e e2) | None => None end
  | None => None
  end.
Proof. reflexivity. Qed.
Lemma eval_plain d t e : eval_m (plain_model d t) e =
  match eval_t t e with Some (x, e') => Some (mk_single d false x, e') | None => None end.
Proof. cbn. rewrite extract_tuple. now destruct (eval_t t e) as [[]|]. Qed.
Lemma run_insert x k v e : run (Insert x k v) e =
  match eval_r v e with
  | Some (r, e') => match tlookup x e' with Some (Has (VMap p)) => Some (tassign x (Has (VMap (bm_insert k r p))) e') | _ => None end
  | None => None
  end.
Proof. reflexivity. Qed.
Lemma run_stmts_app f l l' : forall e, run_stmts f (l ++ l') e = match run_stmts f l e with Some e1 => run_stmts f l' e1 | None => None end.
Proof. induction l as [|s l IH]; intros e; [reflexivity|]. cbn. destruct (f s e); [apply IH|reflexivity]. Qed.

Section Object.
  Variable m : mark.
  Hypothesis Hm : m <> [].
  Let P := Id (u "properties") m.
  Let R := Id (u "required") m.
  Definition inside_block (p : bmap str model_ref) (r : list str) (e : tframe) : tframe := (R, Has (VVec r)) :: (P, Has (VMap p)) :: e.
  Lemma P_R : P <> R. Proof. intros [= H]. Qed.
  Lemma lookup_P p r e : tlookup P (inside_block p r e) = Some (Has (VMap p)).
  Proof.
    unfold inside_block. cbn [tlookup]. destruct (ident_eq_dec P R) as [E|_]; [now apply P_R in E|]. now destruct (ident_eq_dec P P).
  Qed.
  Lemma lookup_R p r e : tlookup R (inside_block p r e) = Some (Has (VVec r)).
  Proof. unfold inside_block. cbn [tlookup]. now destruct (ident_eq_dec R R). Qed.
  Lemma assign_P p r e s : tassign P s (inside_block p r e) = (R, Has (VVec r)) :: (P, s) :: e.
  Proof.
    unfold inside_block. cbn [tassign]. destruct (ident_eq_dec P R) as [E|_]; [now apply P_R in E|]. now destruct (ident_eq_dec P P).
  Qed.
  Lemma assign_R s s' e : tassign R s ((R, s') :: e) = (R, s) :: e.
  Proof. cbn [tassign]. now destruct (ident_eq_dec R R). Qed.
  Lemma say_inside v p r e : say_value v (inside_block p r e) = match say_value v e with Some (v', e') => Some (v', inside_block p r e') | None => None end.
  Proof.
    unfold inside_block, P, R. destruct (say_under (u "required") m (Has (VVec r)) Hm) as [_ ->].
    destruct (say_under (u "properties") m (Has (VMap p)) Hm) as [_ ->]. now destruct (say_value v e) as [[]|].
  Qed.
  Lemma properties_run l : Forall (fun e => value_ok (snd e)) l -> forall i p r e,
    run_stmts run (expand_properties expand_value m P R i l) (inside_block p r e) =
    match say_properties say_value l e with
    | Some (l', e') => let (p', r') := add_properties (map (fun e => (fst (fst e), snd (fst e), describe_value_ref (snd e))) l') p r in Some (inside_block p' r' e')
    | None => None
    end.
  Proof.
    induction 1 as [|[[k req] v] l Hv _ IH]; intros i p r e; [reflexivity|]. cbn [snd] in Hv.
    cbn [expand_properties say_properties]. cbn [run_stmts]. rewrite run_insert, (Hv (i :: m) _ ltac:(discriminate)), say_inside.
    destruct (say_value v e) as [[v' e1]|]; [|reflexivity].
    rewrite lookup_P, assign_P.
    change ((R, Has (VVec r)) :: (P, Has (VMap (bm_insert k (describe_value_ref v') p))) :: e1) with (inside_block (bm_insert k (describe_value_ref v') p) r e1).
    rewrite run_stmts_app. set (p1 := bm_insert k (describe_value_ref v') p).
    assert (Hr : run_stmts run (if req then [Push R k] else []) (inside_block p1 r e1) = Some (inside_block p1 (if req then r ++ [k] else r) e1)).
    { destruct req; [|reflexivity]. cbn [run_stmts run]. rewrite lookup_R. unfold inside_block. now rewrite assign_R. }
    rewrite Hr, IH. destruct (say_properties say_value l e1) as [[l' e2]|]; reflexivity.
  Qed.
  Lemma object_run d l : Forall (fun e => value_ok (snd e)) l -> forall e,
    eval_m (expand_type m (XtObject d l)) e = match say (XtObject d l) e with Some (d', e') => Some (describe_type d', e') | None => None end.
  Proof.
    intros H e. change (expand_type m (XtObject d l)) with
      (MBlock (LetMap P :: LetVec R :: expand_properties expand_value m P R 0 l) (plain_model d (TObject P R))).
    rewrite eval_block. change (run_stmts run (LetMap P :: LetVec R :: expand_properties expand_value m P R 0 l) e)
      with (run_stmts run (expand_properties expand_value m P R 0 l) (inside_block [] [] e)).
    rewrite (properties_run l H). cbn [say]. destruct (say_properties say_value l e) as [[l' e']|] eqn:El; [|reflexivity]. cbn [describe_type].
    assert (Hlen : length e' = length e) by (destruct say_length as [Hs _]; eapply (Hs (XtObject d l)); cbn [say]; rewrite El; reflexivity).
    destruct (add_properties _ [] []) as [p r]. rewrite eval_plain. cbn [eval_t]. unfold move. rewrite lookup_P, assign_P.
    cbn [tlookup]. destruct (ident_eq_dec R R) as [_|E]; [|now destruct E]. rewrite assign_R, tleave_two by assumption. reflexivity.
  Qed.
End Object.

Lemma code_runs : (forall d, code_ok d) /\ forall v, value_ok v.
Proof.
  apply xdescribe_both; unfold code_ok, value_ok; intros.
  - cbn. unfold own. now destruct (move (Id v []) e) as [[[] ?]|].
  - cbn. unfold own. rewrite extract_tuple. now destruct (move (Id v []) e) as [[[] ?]|].
  - cbn. now rewrite !extract_tuple.
  - cbn. now rewrite !extract_tuple.
  - cbn. now rewrite !extract_tuple.
  - cbn. now rewrite !extract_tuple.
  - cbn [expand_type]. rewrite eval_plain. cbn [eval_t say]. rewrite H by discriminate. now destruct (say_value i e) as [[]|].
  - now apply object_run.
  - reflexivity.
  - cbn. unfold own. now destruct (tlookup (Id v []) e) as [[[]|]|].
  - cbn [expand_value say_value]. change (eval_r (RInline (expand_type (0 :: m) d)) e) with
      (match eval_m (expand_type (0 :: m) d) e with Some (m', e') => Some (Inline m', e') | None => None end).
    rewrite H by discriminate. now destruct (say d e) as [[]|].
Qed.
