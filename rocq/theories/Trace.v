(** Model of the code that [describe_api!] writes (Expand.v), with expressions of the caller that may do things.

    Expand.v takes an expression of the caller as a value that depends on the variables.  Here an expression may also depend on
    what was evaluated before it, and may panic: [answer h e s] is what the expression [e] gives where the expressions
    in [h] were evaluated before, in this order, and the variables of the caller are [s].  Running the code also gives which
    expressions it evaluated.  Everything else is as in Expand.v, statement by statement; the code is the same. *)
From Coq Require Import List NArith Bool PeanoNat.
From Verif Require Export Expand.
Import ListNotations.

Definition history := list uexpr.
Definition traced (A : Type) := history -> outcome A * history.
Definition ret {A} (a : A) : traced A := fun h => (Done a, h).
Definition out {A} (o : outcome A) : traced A := fun h => (o, h).
Definition andthen {A B} (m : traced A) (k : A -> traced B) : traced B :=
  fun h => match m h with
           | (Done a, h1) => k a h1
           | (o, h1) => (obind o (fun _ => Rejected), h1)
           end.
Notation "'now' p <- m ; k" := (andthen m (fun x => match x with p => k end)) (at level 200, p pattern, m at level 100, k at level 200).

(** macros.rs: statements one after the other *)
Definition trun_all (run : stmt -> frame -> traced frame) :=
  fix go (l : list stmt) (e : frame) : traced frame := match l with [] => ret e | s :: l' => now e1 <- run s e; go l' e1 end.
Definition teval_all (eval : rexpr -> frame -> traced (val * frame)) :=
  fix go (l : list rexpr) (e : frame) : traced (list val * frame) :=
    match l with [] => ret ([], e) | x :: l' => now (v, e1) <- eval x e; now (vs, e2) <- go l' e1; ret (v :: vs, e2) end.
(** the fields of a struct expression are evaluated in the order in which they are written *)
Definition teval_fields (eval : rexpr -> frame -> traced (val * frame)) :=
  fix go (l : list (fname * rexpr)) (e : frame) : traced (list (fname * val) * frame) :=
    match l with
    | [] => ret ([], e)
    | (f, x) :: l' => now (v, e1) <- eval x e; now (vs, e2) <- go l' e1; ret ((f, v) :: vs, e2)
    end.

Section Run.
  Variable E : env.
  Variable fuel : nat.
  Variable reason : N -> option str.
  Variable imported : bool.
  (** [None]: it panics *)
  Variable answer : history -> uexpr -> scope -> option val.

  (** as [eval] and [run] (Expand.v) *)
  Fixpoint teval (x : rexpr) (e : frame) {struct x} : traced (val * frame) :=
    match x with
    | EUser f => fun h => (match answer h f (scope_of e) with Some v => Done (v, e) | None => Panicked end, h ++ [f])
    | EVar i => now v <- out (typed (lookup i e)); ret (v, e)
    | EVal v => ret (v, e)
    | ECallbackObject => if imported then ret (XCallback (Callback []), e) else out Rejected
    | EToString x => now (v, e1) <- teval x e; now s <- out (typed (as_display v)); ret (XText s, e1)
    | ECon c x => now (v, e1) <- teval x e; now w <- out (typed (apply_con c v)); ret (w, e1)
    | EExtract None => ret (XOption None, e)
    | EExtract (Some x) => now (v, e1) <- teval x e; ret (XOption (Some v), e1)
    | EOr x y =>
        now (v, e1) <- teval x e;
        now (w, e2) <- teval y e1;
        match v with XOption None => ret (w, e2) | XOption (Some _) => ret (v, e2) | _ => out Rejected end
    | EUnwrapOrElse x y =>
        now (v, e1) <- teval x e;
        match v with XOption None => teval y e1 | XOption (Some w) => ret (w, e1) | _ => out Rejected end
    | EReason code => ret (XOption (option_map XText (reason code)), e)
    | EMention result t =>
        match lookup result e with
        | Some (XOpg d) =>
            now (r, cx) <- out (lift (mention E fuel t false params_default (og_components d)));
            ret (XRef r, assign result (XOpg (put_cx d cx)) e)
        | _ => out Rejected
        end
    | EMentionScheme result x y =>
        now (n, e1) <- teval x e;
        now (v, e2) <- teval y e1;
        match lookup result e2, n, as_scheme v with
        | Some (XOpg d), XText n, Some s =>
            let (name, cx) := mention_security_scheme n s (og_components d) in
            ret (XText name, assign result (XOpg (put_cx d cx)) e2)
        | _, _, _ => out Rejected
        end
    | EStruct n l => now (vs, e1) <- teval_fields teval l e; now v <- out (typed (build n vs)); ret (v, e1)
    | EMatchKind x b r =>
        now (v, e1) <- teval x e; match v with XKind KBasic => teval b e1 | XKind KBearer => teval r e1 | _ => out Rejected end
    | EPair x y =>
        now (v, e1) <- teval x e;
        now (w, e2) <- teval y e1;
        match v, w with XPath p, XPathValue pv => ret (XPathEntry (p, pv), e2) | _, _ => out Rejected end
    | EVec l => now (vs, e1) <- teval_all teval l e; ret (XVec vs, e1)
    | EAfterColon x => now (v, e1) <- teval x e; match v with XLit s => ret (XLit (after_colon s), e1) | _ => out Rejected end
    | EFirst x =>
        now (v, e1) <- teval x e;
        match v with XLit s => match split_first s with Some (a, _) => ret (XLit a, e1) | None => out Panicked end | _ => out Rejected end
    | ERest x =>
        now (v, e1) <- teval x e;
        match v with XLit s => match split_first s with Some (_, b) => ret (XLit b, e1) | None => out Panicked end | _ => out Rejected end
    | EToLowercase x => now (v, e1) <- teval x e; match v with XLit s => ret (XText (to_lower s), e1) | _ => out Rejected end
    | EConcat x y =>
        now (v, e1) <- teval x e;
        now (w, e2) <- teval y e1;
        match v, w with XText a, XLit b => ret (XText (a ++ b), e2) | _, _ => out Rejected end
    | EBlock l x => now e1 <- trun_all trun l e; now (v, e2) <- teval x e1; ret (v, leave e e2)
    end
  with trun (s : stmt) (e : frame) {struct s} : traced frame :=
    match s with
    | SLet i x => now (v, e1) <- teval x e; ret ((i, v) :: e1)
    | SAssign i x => now (v, e1) <- teval x e; now _ <- out (typed (lookup i e1)); ret (assign i v e1)
    | SSet i f x =>
        now (v, e1) <- teval x e; now w <- out (typed (lookup i e1)); now w' <- out (typed (set_field w f v)); ret (assign i w' e1)
    | SPush i f x =>
        now (v, e1) <- teval x e; now w <- out (typed (lookup i e1)); now w' <- out (typed (push w f v)); ret (assign i w' e1)
    | SInsert i f k x =>
        now (n, e1) <- teval k e; now (v, e2) <- teval x e1;
        now w <- out (typed (lookup i e2)); now w' <- out (typed (insert w f n v)); ret (assign i w' e2)
    | SCall i m x =>
        now (v, e1) <- teval x e; now w <- out (typed (lookup i e1)); now w' <- out (typed (call w m v)); ret (assign i w' e1)
    | SBlock l => now e1 <- trun_all trun l e; ret (leave e e1)
    | SNoRule => out Rejected
    end.
End Run.

(** Running an invocation: its outcome, and the expressions that were evaluated, in this order. *)
Definition trace_api (E : env) (fuel : nat) (reason : N -> option str) (imported : bool) (answer : history -> uexpr -> scope -> option val)
  (seg : list tree -> option segment) (s : scope) (l : xapi) : outcome opg * history :=
  (now (v, _) <- teval E fuel reason imported answer (expand_api seg l) (map (fun b => (Id (fst b) [], snd b)) s);
   match v with XOpg d => ret d | _ => out Rejected end) [].
