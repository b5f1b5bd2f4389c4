(** How rustc matches a [macro_rules!] invocation against the patterns of a rule.

    This models rustc's matcher (compiler/rustc_expand/src/mbe/macro_parser.rs), which opg's two macros run on: all ways
    to match are followed in parallel, one token at a time; a fragment ([$x:expr] etc.) is parsed only when it is the only
    way to go on, and a failure to parse it is final.  Simplifications: groups are matched one at a time, and two ways
    that both go on with a group are reported as an ambiguity; the parsers for expressions and paths are given by
    oracles. *)
From Verif Require Export Tokens.

(** the fragments opg's macros use *)
Inductive frag := FIdent | FLit | FExpr | FPath | FTt.
(** [$( .. )?], [$( .. )*], [$( .. )+] *)
Inductive rep := ROpt | RStar | RPlus.
(** a token, a delimited pattern, a fragment, a repetition with an optional separator *)
Inductive pat :=
| PT (t : tree)
| PG (d : delim) (ps : list pat)
| PV (f : frag)
| PR (ps : list pat) (sep : option tree) (op : rep).

(** the value of a literal *)
Inductive lval := VStr (s : str) | VInt (n : N) | VBool (b : bool) | VOther (text : str) | VNeg (l : tlit).
(** what a pattern variable stands for, in the order in which the variables occur in the pattern *)
Inductive binding := BId (s : str) | BLit (v : lval) | BToks (ts : list tree) | BRep (l : list (list binding)).

Inductive fres := FNo | FErr | FOk (b : binding) (rest : list tree).
Inductive mres := Match (b : list binding) | NoMatch | Abort | NoFuel.

(** what is left to match: a pattern, or the end of one round of a repetition, with the rounds before and the
    bindings outside of it *)
Inductive kont := KP (p : pat) | KR (ps : list pat) (sep : option tree) (op : rep) (before : list (list binding)) (outer : list binding).
(** the bindings so far, last first, and what is left *)
Definition thread : Type := list binding * list kont.
(** a thread that can do nothing but look at the input *)
Inductive ready := REnd (b : list binding) | RTok (t : tree) (th : thread) | RGrp (d : delim) (ps : list pat) (th : thread)
  | RFrag (f : frag) (th : thread).

Definition lit_value (l : tlit) : lval := match l with TlStr s => VStr s | TlInt n => VInt n | TlOther s => VOther s end.

Definition both {A} (a b : option (list A)) : option (list A) :=
  match a, b with Some x, Some y => Some (x ++ y) | _, _ => None end.

(** [inner_parse_loop]: follow the repetitions up to the next look at the input; bounded by a number that no pattern of opg needs *)
Fixpoint closure (n : nat) (th : thread) : option (list ready) :=
  match n with
  | O => None
  | S n' =>
      match th with
      | (cur, []) => Some [REnd (rev cur)]
      | (cur, KP (PT t) :: k) => Some [RTok t (cur, k)]
      | (cur, KP (PG d ps) :: k) => Some [RGrp d ps (cur, k)]
      | (cur, KP (PV f) :: k) => Some [RFrag f (cur, k)]
      | (cur, KP (PR ps sep op) :: k) =>
          both (match op with RPlus => Some [] | _ => closure n' (BRep [] :: cur, k) end)
               (closure n' ([], map KP ps ++ KR ps sep op [] cur :: k))
      | (cur, KR ps sep op before outer :: k) =>
          let before' := before ++ [rev cur] in
          both (closure n' (BRep before' :: outer, k))
               (match op, sep with
                | ROpt, _ => Some []
                | _, None => closure n' ([], map KP ps ++ KR ps sep op before' outer :: k)
                | _, Some t => Some [RTok t ([], map KP ps ++ KR ps sep op before' outer :: k)]
                end)
      end
  end.
Definition DEPTH : nat := 20.
Fixpoint closures (l : list thread) : option (list ready) :=
  match l with [] => Some [] | th :: l' => both (closure DEPTH th) (closures l') end.

Definition ends (l : list ready) : list (list binding) := flat_map (fun r => match r with REnd b => [b] | _ => [] end) l.
Definition tok_next (t : tree) (l : list ready) : list thread :=
  flat_map (fun r => match r with RTok t' th => if token_eqb t' t then [th] else [] | _ => [] end) l.
Definition grp_next (t : tree) (l : list ready) : list (list pat * list tree * thread) :=
  flat_map (fun r => match r, t with RGrp d ps th, TkGr d' l => if delim_eqb d d' then [(ps, l, th)] else [] | _, _ => [] end) l.

Section Run.
  (** whether a token can begin an expression; how many token trees the expression (path) at the beginning takes, if
      there is one *)
  Variable begins_expr : tree -> bool.
  Variable expr_len path_len : list tree -> option nat.

  (** [token.can_begin_expr] and the like: may the fragment begin with this token? *)
  Definition may_begin (f : frag) (t : tree) : bool :=
    match f, t with
    | FIdent, TkId s => negb (str_eqb s (u "_"))
    | FIdent, _ => false
    | FLit, TkLit _ => true
    | FLit, TkId s => str_eqb s (u "true") || str_eqb s (u "false")
    | FLit, TkPu s => str_eqb s (u "-")
    | FLit, TkGr _ _ => false
    | FPath, TkId _ => true
    | FPath, TkPu s => str_eqb s (u "::")
    | FPath, _ => false
    | FExpr, t => begins_expr t
    | FTt, _ => true
    end.
  Definition take (n : option nat) (input : list tree) : fres :=
    match n with
    | Some (S k) => if Nat.leb (S k) (length input) then FOk (BToks (firstn (S k) input)) (skipn (S k) input) else FErr
    | _ => FErr
    end.
  (** [parse_nt] *)
  Definition parse_frag (f : frag) (input : list tree) : fres :=
    match f, input with
    | FIdent, TkId s :: rest => FOk (BId s) rest
    | FLit, TkLit l :: rest => FOk (BLit (lit_value l)) rest
    | FLit, TkId s :: rest => FOk (BLit (VBool (str_eqb s (u "true")))) rest
    | FLit, TkPu _ :: TkLit l :: rest => FOk (BLit (VNeg l)) rest
    | FTt, t :: rest => FOk (BToks [t]) rest
    | FExpr, _ => take (expr_len input) input
    | FPath, _ => take (path_len input) input
    | _, _ => FErr
    end.
  Definition frag_next (t : tree) (l : list ready) : list (frag * thread) :=
    flat_map (fun r => match r with RFrag f th => if may_begin f t then [(f, th)] else [] | _ => [] end) l.

  (** [parse_tt]; each step consumes a token, so there is no end to it only for lack of fuel *)
  Fixpoint run (n : nat) (l : list ready) (input : list tree) : mres :=
    match n with
    | O => NoFuel
    | S n' =>
        let go ths rest := match closures ths with Some l' => run n' l' rest | None => NoFuel end in
        match input with
        | [] => match ends l with [b] => Match b | [] => NoMatch | _ => Abort end
        | t :: rest =>
            match frag_next t l, tok_next t l, grp_next t l with
            | [], [], [] => NoMatch
            | [(f, (cur, k))], [], [] => match parse_frag f input with FOk b rest' => go [(b :: cur, k)] rest' | _ => Abort end
            | [], ths, [] => go ths rest
            | [], [], [(ps, inner, (cur, k))] =>
                match go [([], map KP ps)] inner with
                | Match b => go [(rev b ++ cur, k)] rest
                | r => r
                end
            | _, _, _ => Abort
            end
        end
    end.
  Definition matches (ps : list pat) (ts : list tree) : mres :=
    match closures [([], map KP ps)] with Some l => run (S (tokens ts)) l ts | None => NoFuel end.

  (** A rule: its patterns and what its right hand side means; [None]: the result does not compile. *)
  Record rule (X : Type) := { lhs : list pat; rhs : list binding -> option X }.
  (** the first rule that matches; an error stops the search *)
  Fixpoint first_rule {X} (rs : list (rule X)) (ts : list tree) : option X :=
    match rs with
    | [] => None
    | r :: rs' => match matches (lhs X r) ts with Match b => rhs X r b | NoMatch => first_rule rs' ts | _ => None end
    end.
End Run.
Arguments lhs {X}. Arguments rhs {X}.
Arguments Build_rule {X}.
