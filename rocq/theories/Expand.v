(** Model of the code that [describe_api!] writes (opg/src/macros.rs:332-748), as Rust statements, and of running it.

    Api.v says directly what an invocation does.  Here the right-hand sides of the rules are transcribed as they stand:
    which variables are declared where, what is assigned, which blocks there are, and where the expressions of the caller
    are put.  Identifiers carry the expansion that they were written in (hygiene of [macro_rules!]): an identifier written by the
    caller and one written by the macro are different variables, even with the same letters.

    Simplified: expressions of the caller return a value, and change nothing; a type that the compiler infers is checked
    when the value is used; moves are checked in Moves.v, borrows are not. *)
From Coq Require Import List NArith Bool PeanoNat.
From Verif Require Export Api.
Import ListNotations.

(** ** Identifiers and values *)
(** where an identifier was written: [[]] by the caller, else the path to the expansion in the tree of expansions *)
Definition mark := list nat.
Record ident := Id { id_name : str; id_mark : mark }.
Definition ident_eq_dec (x y : ident) : {x = y} + {x <> y}.
Proof. decide equality; apply list_eq_dec; [apply Nat.eq_dec|apply N.eq_dec]. Defined.

Inductive val :=
| XLit (s : str)                     (* a [&str], or another reference to text *)
| XText (s : str)                    (* a [String] *)
| XBool (b : bool) | XNum (n : N)
| XOption (o : option val)
| XVec (l : list val)
| XRef (r : model_ref) | XScheme (s : security_scheme) | XKind (k : http_kind) | XIn (i : parameter_in)
| XHttp (h : http_security_scheme) | XKey (k : api_key_scheme) | XMissing (* ParameterNotSpecified *)
| XSegment (e : path_element) | XSegments (l : list path_element) | XPath (p : path) | XPathEntry (e : path * path_value)
| XPathValue (v : path_value) | XOperation (o : operation) | XParameter (p : op_parameter) | XBody (b : request_body)
| XResponse (r : response) | XRequirement (m : bmap str (list str)) | XCallback (c : callback)
| XInfo (i : info) | XTag (t : tag) | XServer (s : server) | XMethod (m : http_method) | XOpg (d : opg).

(** what the compiler demands of a value where it is used *)
Definition as_display (v : val) : option str := match v with XLit s | XText s => Some s | _ => None end.
Definition as_lit (v : val) : option str := match v with XLit s => Some s | _ => None end.
Definition as_text (v : val) : option str := match v with XText s => Some s | _ => None end.
Definition as_bool (v : val) : option bool := match v with XBool b => Some b | _ => None end.
Definition as_option {A} (f : val -> option A) (v : val) : option (option A) :=
  match v with XOption None => Some None | XOption (Some x) => option_map Some (f x) | _ => None end.
Definition as_ref (v : val) : option model_ref := match v with XRef r => Some r | _ => None end.
Fixpoint as_list {A} (f : val -> option A) (l : list val) : option (list A) :=
  match l with
  | [] => Some []
  | v :: l' => match f v, as_list f l' with Some a, Some r => Some (a :: r) | _, _ => None end
  end.
Definition as_vec {A} (f : val -> option A) (v : val) : option (list A) := match v with XVec l => as_list f l | _ => None end.
Definition as_in (v : val) : option parameter_in := match v with XIn i => Some i | _ => None end.

(** [SecurityScheme: From<T>]: models.rs:1096-1100, 1123-1127, and the scheme itself *)
Definition as_scheme (v : val) : option security_scheme :=
  match v with XScheme s => Some s | XHttp h => Some (Http h) | XKey k => Some (ApiKey k) | _ => None end.

(** the variables, the innermost first *)
Definition frame := list (ident * val).
Fixpoint lookup (x : ident) (e : frame) : option val :=
  match e with [] => None | (y, v) :: e' => if ident_eq_dec x y then Some v else lookup x e' end.
Fixpoint assign (x : ident) (v : val) (e : frame) : frame :=
  match e with [] => [] | (y, w) :: e' => if ident_eq_dec x y then (y, v) :: e' else (y, w) :: assign x v e' end.
(** the variables that an expression of the caller can name *)
Definition scope := list (str * val).
Definition scope_of (e : frame) : scope :=
  flat_map (fun b => match id_mark (fst b) with [] => [(id_name (fst b), snd b)] | _ => [] end) e.
(** an expression of the caller *)
Definition uexpr := scope -> val.

(** ** Code *)
Inductive fname :=
| Finfo | Ftitle | Fversion | Fdescription | Ftags | Fservers | Furl | Fpaths | Fcomponents_security_schemes | Foperations | Fparameters
| Fsummary | Fcallbacks | Fsecurity | Fresponses | Frequired | Fdeprecated | Fschema | Fparameter_in | Fname | Fformat.
Inductive struct_name := NInfo | NTag | NServer | NOperationParameter | NRequestBody | NResponse | NBasic | NBearer | NApiKey.
(** constructors with one argument *)
Inductive con := CSome | CHttp | CPath | CPathElementPath | CPathElementParameter.
Inductive method := Mwith_summary | Mwith_operation_id | Mwith_description | Mmark_deprecated | Mwith_request_body.

Inductive rexpr :=
| EUser (e : uexpr)
| EVar (x : ident)
| EVal (v : val)                                   (* literals, constants, defaults of models.rs *)
| ECallbackObject                                  (* [CallbackObject::default()], without a path: found only if imported by the caller *)
| EToString (e : rexpr)                            (* [.to_string()], [.to_owned()], [.into()] *)
| ECon (c : con) (e : rexpr)
| EExtract (e : option rexpr)                      (* [FromStrangeTuple::extract((e,))], [FromStrangeTuple::extract(())] *)
| EOr (e1 e2 : rexpr)                              (* [e1.or(e2)] *)
| EUnwrapOrElse (e1 e2 : rexpr)                    (* [e1.unwrap_or_else(|| e2)] *)
| EReason (code : N)                               (* [StatusCode::from_u16(code).ok().and_then(|status| status.canonical_reason()).map(ToString::to_string)] *)
| EMention (result : ident) (t : ty)               (* [result.components.mention_schema::<t>(false, &Default::default())] *)
| EMentionScheme (result : ident) (name e : rexpr) (* [result.components.mention_security_scheme(name, &e)] *)
| EStruct (n : struct_name) (l : list (fname * rexpr)) (* with [..Default::default()] for [Info] *)
| EMatchKind (e basic bearer : rexpr)
| EPair (e1 e2 : rexpr)
| EVec (l : list rexpr)                            (* [vec![..]] *)
| EAfterColon (e : rexpr)                          (* [&e[e.rfind(':').map(|i| i + 1).unwrap_or_default()..]] *)
| EFirst (e : rexpr)                               (* [e[..1]] *)
| ERest (e : rexpr)                                (* [&e[1..]] *)
| EToLowercase (e : rexpr)                         (* [.to_ascii_lowercase()] *)
| EConcat (e1 e2 : rexpr)                          (* [e1 + e2] *)
| EBlock (l : list stmt) (e : rexpr)
with stmt :=
| SLet (x : ident) (e : rexpr)
| SAssign (x : ident) (e : rexpr)
| SSet (x : ident) (f : fname) (e : rexpr)         (* [x.f = e] *)
| SPush (x : ident) (f : option fname) (e : rexpr) (* [x.f.push(e)], [x.push(e)] *)
| SInsert (x : ident) (f : option fname) (k e : rexpr) (* [x.f.insert(k, e)], [x.insert(k, e)] *)
| SCall (x : ident) (m : method) (e : rexpr)       (* [x.m(e)] *)
| SBlock (l : list stmt)
| SNoRule.                                         (* a call of a macro that no rule matches *)

(** ** Running it *)
Definition to_lower (s : str) : str := map (fun c => if (65 <=? c)%N && (c <=? 90)%N then (c + 32)%N else c) s.
(** slicing at byte 1 panics if there is no first character of one byte *)
Definition split_first (s : str) : option (str * str) := match s with c :: s' => if (c <? 128)%N then Some ([c], s') else None | [] => None end.
Definition after_colon (s : str) : str := match after_last_colon s with Some r => r | None => s end.
Definition put_cx (d : opg) (cx : components) : opg :=
  {| og_info := og_info d; og_tags := og_tags d; og_servers := og_servers d; og_paths := og_paths d; og_components := cx |}.
Definition put_paths (d : opg) (l : list (path * path_value)) : opg :=
  {| og_info := og_info d; og_tags := og_tags d; og_servers := og_servers d; og_paths := l; og_components := og_components d |}.

Definition apply_con (c : con) (v : val) : option val :=
  match c, v with
  | CSome, _ => Some (XOption (Some v))
  | CHttp, XHttp h => Some (XScheme (Http h))
  | CPath, XSegments l => Some (XPath l)
  | CPathElementPath, XText s => Some (XSegment (PePath s))
  | CPathElementParameter, XText s => Some (XSegment (PeParameter s))
  | _, _ => None
  end.
(** struct literals: the fields of models.rs, each once, in any order *)
Definition fname_eq_dec (f g : fname) : {f = g} + {f <> g}.
Proof. decide equality. Defined.
Fixpoint take (f : fname) (l : list (fname * val)) : option (val * list (fname * val)) :=
  match l with
  | [] => None
  | (g, v) :: l' => if fname_eq_dec f g then Some (v, l') else
                    match take f l' with Some (w, r) => Some (w, (g, v) :: r) | None => None end
  end.
Definition need {A B} (f : fname) (conv : val -> option A) (l : list (fname * val)) (k : A -> list (fname * val) -> option B) : option B :=
  match take f l with Some (v, l') => match conv v with Some a => k a l' | None => None end | None => None end.
Definition need_or {A B} (f : fname) (conv : val -> option A) (default : A) (l : list (fname * val)) (k : A -> list (fname * val) -> option B) : option B :=
  match take f l with Some (v, l') => match conv v with Some a => k a l' | None => None end | None => k default l end.
Definition no_more {A} (a : A) (l : list (fname * val)) : option A := match l with [] => Some a | _ => None end.
Definition build (n : struct_name) (l : list (fname * val)) : option val :=
  match n with
  (* models.rs:99-110; macros.rs:342-345 with [..Default::default()] *)
  | NInfo => need_or Ftitle as_text [] l (fun t l => need_or Fversion as_text [] l (fun v l =>
               need_or Fdescription (as_option as_text) None l (fun d l => no_more (XInfo {| in_title := t; in_description := d; in_version := v |}) l)))
  (* models.rs:116-120, 128-135 *)
  | NTag => need Fdescription (as_option as_text) l (fun d l => no_more (XTag {| tg_description := d |}) l)
  | NServer => need Furl as_text l (fun url l => need Fdescription (as_option as_text) l (fun d l => no_more (XServer {| sv_url := url; sv_description := d |}) l))
  (* models.rs:478-498 *)
  | NOperationParameter =>
      need Fdescription (as_option as_text) l (fun d l => need Fparameter_in as_in l (fun i l => need Frequired as_bool l (fun r l =>
      need Fdeprecated as_bool l (fun dp l => need Fschema (as_option as_ref) l (fun s l =>
        no_more (XParameter {| pr_description := d; pr_in := i; pr_required := r; pr_deprecated := dp; pr_schema := s |}) l)))))
  (* models.rs:329-335, 369-375 *)
  | NRequestBody =>
      need Fdescription (as_option as_text) l (fun d l => need Frequired as_bool l (fun r l => need Fschema as_ref l (fun s l =>
        no_more (XBody {| rb_description := d; rb_required := r; rb_schema := s |}) l)))
  | NResponse =>
      need Fdescription as_text l (fun d l => need Fschema (as_option as_ref) l (fun s l =>
        no_more (XResponse {| rs_description := d; rs_schema := s |}) l))
  (* models.rs:1079-1094, 1108-1121 *)
  | NBasic => need Fdescription (as_option as_text) l (fun d l => no_more (XHttp (Basic d)) l)
  | NBearer =>
      need Fformat (as_option as_text) l (fun f l => need Fdescription (as_option as_text) l (fun d l => no_more (XHttp (Bearer f d)) l))
  (* with [SecurityScheme::ApiKey(..)] around it *)
  | NApiKey =>
      need Fparameter_in as_in l (fun i l => need Fname as_text l (fun n l => need Fdescription (as_option as_text) l (fun d l =>
        no_more (XScheme (ApiKey {| ak_in := i; ak_name := n; ak_description := d |})) l)))
  end.

Definition set_field (v : val) (f : fname) (x : val) : option val :=
  match v, f with
  | XOpg d, Finfo =>
      match x with
      | XInfo i => Some (XOpg {| og_info := i; og_tags := og_tags d; og_servers := og_servers d; og_paths := og_paths d; og_components := og_components d |})
      | _ => None
      end
  | XPathValue p, Fsummary =>
      option_map (fun s => XPathValue (Build_path_value_of s (pv_description p) (pv_operations p) (pv_parameters p))) (as_option as_text x)
  | XPathValue p, Fdescription =>
      option_map (fun s => XPathValue (Build_path_value_of (pv_summary p) s (pv_operations p) (pv_parameters p))) (as_option as_text x)
  | XParameter p, Fdescription =>
      option_map (fun s => XParameter {| pr_description := s; pr_in := pr_in p; pr_required := pr_required p; pr_deprecated := pr_deprecated p; pr_schema := pr_schema p |}) (as_option as_text x)
  | XParameter p, Frequired =>
      option_map (fun b => XParameter {| pr_description := pr_description p; pr_in := pr_in p; pr_required := b; pr_deprecated := pr_deprecated p; pr_schema := pr_schema p |}) (as_bool x)
  | XParameter p, Fdeprecated =>
      option_map (fun b => XParameter {| pr_description := pr_description p; pr_in := pr_in p; pr_required := pr_required p; pr_deprecated := b; pr_schema := pr_schema p |}) (as_bool x)
  | XParameter p, Fschema =>
      option_map (fun s => XParameter {| pr_description := pr_description p; pr_in := pr_in p; pr_required := pr_required p; pr_deprecated := pr_deprecated p; pr_schema := s |}) (as_option as_ref x)
  | _, _ => None
  end.
Definition push (v : val) (f : option fname) (x : val) : option val :=
  match v, f, x with
  | XSegments l, None, XSegment e => Some (XSegments (l ++ [e]))
  | XOpg d, Some Fservers, XServer s =>
      Some (XOpg {| og_info := og_info d; og_tags := og_tags d; og_servers := og_servers d ++ [s]; og_paths := og_paths d; og_components := og_components d |})
  | XOpg d, Some Fpaths, XPathEntry e => Some (XOpg (put_paths d (og_paths d ++ [e])))
  | XCallback c, Some Fpaths, XPathEntry e => Some (XCallback (Callback (cb_paths c ++ [e])))
  | XOperation o, Some Ftags, XText s => Some (XOperation (push_tags [s] o))
  | XOperation o, Some Fsecurity, XRequirement m => Some (XOperation (push_security m o))
  | _, _, _ => None
  end.
Definition insert (v : val) (f : option fname) (k x : val) : option val :=
  match v, f, k, x with
  | XRequirement m, None, XText n, _ => option_map (fun l => XRequirement (bm_insert n l m)) (as_vec as_text x)
  | XOpg d, Some Ftags, XText n, XTag t =>
      Some (XOpg {| og_info := og_info d; og_tags := bm_insert n t (og_tags d); og_servers := og_servers d; og_paths := og_paths d; og_components := og_components d |})
  | XOpg d, Some Fcomponents_security_schemes, XText n, XScheme s =>
      Some (XOpg (put_cx d {| cx_schemas := cx_schemas (og_components d); cx_security := bm_insert n s (cx_security (og_components d)) |}))
  | XPathValue p, Some Foperations, XMethod m, XOperation o =>
      Some (XPathValue (Build_path_value_of (pv_summary p) (pv_description p) (bm_insert m o (pv_operations p)) (pv_parameters p)))
  | XPathValue p, Some Fparameters, XText n, XParameter a =>
      Some (XPathValue (Build_path_value_of (pv_summary p) (pv_description p) (pv_operations p) (bm_insert n a (pv_parameters p))))
  | XOperation o, Some Fparameters, XText n, XParameter a => Some (XOperation (op_set_parameters (bm_insert n a (op_parameters o)) o))
  | XOperation o, Some Fresponses, XNum n, XResponse r => Some (XOperation (insert_response n r o))
  | XOperation o, Some Fcallbacks, XText n, XCallback c => Some (XOperation (insert_callback n c o))
  | _, _, _, _ => None
  end.
(** models.rs:290-322: the first three take a reference to something that can be displayed: not a [String] *)
Definition call (v : val) (m : method) (x : val) : option val :=
  match v, m with
  | XOperation o, Mwith_summary => option_map (fun s => XOperation (with_summary s o)) (as_lit x)
  | XOperation o, Mwith_operation_id => option_map (fun s => XOperation (with_operation_id s o)) (as_lit x)
  | XOperation o, Mwith_description => option_map (fun s => XOperation (with_description s o)) (as_lit x)
  | XOperation o, Mmark_deprecated => option_map (fun b => XOperation (mark_deprecated b o)) (as_bool x)
  | XOperation o, Mwith_request_body => match x with XBody b => Some (XOperation (with_request_body b o)) | _ => None end
  | _, _ => None
  end.

(** what does not have the type that is needed is rejected by the compiler *)
Definition typed {A} (o : option A) : outcome A := match o with Some a => Done a | None => Rejected end.
Definition run_all (run : stmt -> frame -> outcome frame) :=
  fix go (l : list stmt) (e : frame) : outcome frame := match l with [] => Done e | s :: l' => get e1 <- run s e; go l' e1 end.
Definition eval_all (eval : rexpr -> frame -> outcome (val * frame)) :=
  fix go (l : list rexpr) (e : frame) : outcome (list val * frame) :=
    match l with [] => Done ([], e) | x :: l' => get (v, e1) <- eval x e; get (vs, e2) <- go l' e1; Done (v :: vs, e2) end.
Definition eval_fields (eval : rexpr -> frame -> outcome (val * frame)) :=
  fix go (l : list (fname * rexpr)) (e : frame) : outcome (list (fname * val) * frame) :=
    match l with
    | [] => Done ([], e)
    | (f, x) :: l' => get (v, e1) <- eval x e; get (vs, e2) <- go l' e1; Done ((f, v) :: vs, e2)
    end.
(** at the end of a block its variables are gone *)
Definition leave (before after : frame) : frame := skipn (length after - length before) after.

Section Run.
  Variable E : env.
  Variable fuel : nat.
  Variable reason : N -> option str.
  (** whether [CallbackObject] is in scope where the macro is called *)
  Variable imported : bool.

  Fixpoint eval (x : rexpr) (e : frame) {struct x} : outcome (val * frame) :=
    match x with
    | EUser f => Done (f (scope_of e), e)
    | EVar i => get v <- typed (lookup i e); Done (v, e)
    | EVal v => Done (v, e)
    | ECallbackObject => if imported then Done (XCallback (Callback []), e) else Rejected
    | EToString x => get (v, e1) <- eval x e; get s <- typed (as_display v); Done (XText s, e1)
    | ECon c x => get (v, e1) <- eval x e; get w <- typed (apply_con c v); Done (w, e1)
    | EExtract None => Done (XOption None, e)
    | EExtract (Some x) => get (v, e1) <- eval x e; Done (XOption (Some v), e1)
    | EOr x y =>
        get (v, e1) <- eval x e;
        get (w, e2) <- eval y e1;
        match v with XOption None => Done (w, e2) | XOption (Some _) => Done (v, e2) | _ => Rejected end
    | EUnwrapOrElse x y =>
        get (v, e1) <- eval x e;
        match v with XOption None => eval y e1 | XOption (Some w) => Done (w, e1) | _ => Rejected end
    | EReason code => Done (XOption (option_map XText (reason code)), e)
    | EMention result t =>
        match lookup result e with
        | Some (XOpg d) =>
            get (r, cx) <- lift (mention E fuel t false params_default (og_components d));
            Done (XRef r, assign result (XOpg (put_cx d cx)) e)
        | _ => Rejected
        end
    | EMentionScheme result x y =>
        get (n, e1) <- eval x e;
        get (v, e2) <- eval y e1;
        match lookup result e2, n, as_scheme v with
        | Some (XOpg d), XText n, Some s =>
            let (name, cx) := mention_security_scheme n s (og_components d) in
            Done (XText name, assign result (XOpg (put_cx d cx)) e2)
        | _, _, _ => Rejected
        end
    | EStruct n l => get (vs, e1) <- eval_fields eval l e; get v <- typed (build n vs); Done (v, e1)
    | EMatchKind x b r => get (v, e1) <- eval x e; match v with XKind KBasic => eval b e1 | XKind KBearer => eval r e1 | _ => Rejected end
    | EPair x y =>
        get (v, e1) <- eval x e;
        get (w, e2) <- eval y e1;
        match v, w with XPath p, XPathValue pv => Done (XPathEntry (p, pv), e2) | _, _ => Rejected end
    | EVec l => get (vs, e1) <- eval_all eval l e; Done (XVec vs, e1)
    | EAfterColon x => get (v, e1) <- eval x e; match v with XLit s => Done (XLit (after_colon s), e1) | _ => Rejected end
    | EFirst x =>
        get (v, e1) <- eval x e;
        match v with XLit s => match split_first s with Some (a, _) => Done (XLit a, e1) | None => Panicked end | _ => Rejected end
    | ERest x =>
        get (v, e1) <- eval x e;
        match v with XLit s => match split_first s with Some (_, b) => Done (XLit b, e1) | None => Panicked end | _ => Rejected end
    | EToLowercase x => get (v, e1) <- eval x e; match v with XLit s => Done (XText (to_lower s), e1) | _ => Rejected end
    | EConcat x y =>
        get (v, e1) <- eval x e;
        get (w, e2) <- eval y e1;
        match v, w with XText a, XLit b => Done (XText (a ++ b), e2) | _, _ => Rejected end
    | EBlock l x => get e1 <- run_all run l e; get (v, e2) <- eval x e1; Done (v, leave e e2)
    end
  with run (s : stmt) (e : frame) {struct s} : outcome frame :=
    match s with
    | SLet i x => get (v, e1) <- eval x e; Done ((i, v) :: e1)
    | SAssign i x => get (v, e1) <- eval x e; get _ <- typed (lookup i e1); Done (assign i v e1)
    | SSet i f x =>
        get (v, e1) <- eval x e; get w <- typed (lookup i e1); get w' <- typed (set_field w f v); Done (assign i w' e1)
    | SPush i f x =>
        get (v, e1) <- eval x e; get w <- typed (lookup i e1); get w' <- typed (push w f v); Done (assign i w' e1)
    | SInsert i f k x =>
        get (n, e1) <- eval k e; get (v, e2) <- eval x e1;
        get w <- typed (lookup i e2); get w' <- typed (insert w f n v); Done (assign i w' e2)
    | SCall i m x =>
        get (v, e1) <- eval x e; get w <- typed (lookup i e1); get w' <- typed (call w m v); Done (assign i w' e1)
    | SBlock l => get e1 <- run_all run l e; Done (leave e e1)
    | SNoRule => Rejected
    end.
End Run.

(** ** Invocations, with the expressions of the caller as expressions *)
Inductive xparam_prop := XpDescription (e : uexpr) | XpRequired (e : uexpr) | XpDeprecated (e : uexpr) | XpSchema (t : ty).
Inductive xparam_decl := XdHeader (name : uexpr) (props : list xparam_prop) | XdQuery (name : str) (t : ty) (props : list xparam_prop).
Inductive xresponse_schema := XrNone | XrUnit | XrType (t : ty) | XrRaw (e : uexpr).
Inductive xsecurity_item := XiLit (name : str) (roles : list str) | XiIdent (name : str) (roles : list str).
Inductive xop_prop (C : Type) :=
| XoSummary (e : uexpr) | XoId (e : uexpr) | XoDescription (e : uexpr) | XoDeprecated (e : uexpr) | XoTags (l : list str)
| XoParameters (l : list xparam_decl)
| XoCallbacks (l : list C) (trailing_comma : bool)
| XoSecurity (l : list (list xsecurity_item))
| XoBody (b : body_decl)
| XoResponse (code : N) (description : option str) (s : xresponse_schema).
Arguments XoSummary {C}. Arguments XoId {C}. Arguments XoDescription {C}. Arguments XoDeprecated {C}. Arguments XoTags {C}.
Arguments XoParameters {C}. Arguments XoCallbacks {C}. Arguments XoSecurity {C}. Arguments XoBody {C}. Arguments XoResponse {C}.
Inductive xpath_prop (C : Type) :=
| XvSummary (s : str) | XvDescription (s : str) | XvParameters (l : list xparam_decl) | XvMethod (m : http_method) (l : list (xop_prop C)).
Arguments XvSummary {C}. Arguments XvDescription {C}. Arguments XvParameters {C}. Arguments XvMethod {C}.
Record xpath_decl_of (C : Type) := XPathDecl { xd_url : list utok; xd_props : list (xpath_prop C) }.
Arguments XPathDecl {C}. Arguments xd_url {C}. Arguments xd_props {C}.
Inductive xcallback_decl :=
| XcLit (name : str) (paths : list (xpath_decl_of xcallback_decl))
| XcIdent (name : str) (paths : list (xpath_decl_of xcallback_decl)).
Definition xpath_decl := xpath_decl_of xcallback_decl.
Inductive xinfo_prop := XnTitle (e : uexpr) | XnVersion (e : uexpr) | XnDescription (e : uexpr).
Inductive xhttp_prop := XhScheme (k : http_kind) | XhFormat (e : uexpr) | XhDescription (e : uexpr).
Inductive xkey_prop := XkIn (i : parameter_in) | XkName (e : uexpr) | XkDescription (e : uexpr).
Inductive xscheme_decl := XsHttp (name : str) (props : list xhttp_prop) | XsApiKey (name : uexpr) (props : list xkey_prop).
(** macros.rs:357-366: a literal or a variable of the caller *)
Inductive xserver_text := XtLit (s : str) | XtVar (name : str).
Inductive xsection :=
| XcInfo (l : list xinfo_prop)
| XcTags (l : list (str * option uexpr))
| XcServers (l : list (xserver_text * option xserver_text))
| XcSecurity (l : list xscheme_decl)
| XcPaths (l : list xpath_decl).
Definition xapi := list xsection.

(** ** The code *)
Definition lit (s : str) : rexpr := EToString (EVal (XLit s)).          (* [$l.to_owned()], [stringify!($l).to_owned()] *)
Definition text (e : uexpr) : rexpr := EToString (EUser e).             (* [($e).to_string()] *)
Definition some (e : rexpr) : rexpr := ECon CSome e.
Definition none : rexpr := EVal (XOption None).

(** macros.rs:340-349: the variables are the identifiers of the caller *)
Definition info_field (p : xinfo_prop) : fname := match p with XnTitle _ => Ftitle | XnVersion _ => Fversion | XnDescription _ => Fdescription end.
Definition info_name (p : xinfo_prop) : str := match p with XnTitle _ => u "title" | XnVersion _ => u "version" | XnDescription _ => u "description" end.
Definition info_value (p : xinfo_prop) : rexpr := match p with XnTitle e | XnVersion e => text e | XnDescription e => some (text e) end.
Definition expand_info (result : ident) (l : list xinfo_prop) : list stmt :=
  [SBlock (map (fun p => SLet (Id (info_name p) []) (info_value p)) l ++
           [SSet result Finfo (EStruct NInfo (map (fun p => (info_field p, EVar (Id (info_name p) []))) l))])].
(** macros.rs:352-356 *)
Definition expand_tags (result : ident) (l : list (str * option uexpr)) : list stmt :=
  [SBlock (map (fun t => SInsert result (Some Ftags) (lit (fst t)) (EStruct NTag [(Fdescription, EExtract (option_map text (snd t)))])) l)].
(** macros.rs:359-366 *)
Definition server_text (t : xserver_text) : rexpr := match t with XtLit s => lit s | XtVar x => EToString (EVar (Id x [])) end.
Definition expand_servers (result : ident) (l : list (xserver_text * option xserver_text)) : list stmt :=
  [SBlock (map (fun s => SPush result (Some Fservers)
     (EStruct NServer [(Furl, server_text (fst s)); (Fdescription, EExtract (option_map server_text (snd s)))])) l)].

(** macros.rs:419-431 *)
Definition expand_http_prop (scheme bearer_format description : ident) (p : xhttp_prop) : stmt :=
  match p with
  | XhScheme k => SLet scheme (EVal (XKind k))
  | XhFormat e => SAssign bearer_format (some (text e))
  | XhDescription e => SAssign description (some (text e))
  end.
(** macros.rs:434-446 *)
Definition expand_key_prop (parameter_in name description : ident) (p : xkey_prop) : stmt :=
  match p with
  | XkIn i => SAssign parameter_in (EVal (XIn i))
  | XkName e => SLet name (text e)
  | XkDescription e => SAssign description (some (text e))
  end.
(** macros.rs:369-416 *)
Fixpoint expand_schemes (m : mark) (result : ident) (l : list xscheme_decl) : list stmt :=
  match l with
  | [] => []
  | XsHttp n props :: l' =>
      let scheme := Id (u "scheme") m in
      let bearer_format := Id (u "bearer_format") m in
      let description := Id (u "description") m in
      let http_security_scheme := Id (u "http_security_scheme") m in
      SBlock
        ([SLet scheme (EVal XMissing); SLet bearer_format none; SLet description none] ++
         map (expand_http_prop scheme bearer_format description) props ++
         [SLet http_security_scheme
            (EMatchKind (EVar scheme) (EStruct NBasic [(Fdescription, EVar description)])
               (EStruct NBearer [(Fformat, EVar bearer_format); (Fdescription, EVar description)]));
          SInsert result (Some Fcomponents_security_schemes) (lit n) (ECon CHttp (EVar http_security_scheme))])
      :: expand_schemes (1 :: m) result l'
  | XsApiKey n props :: l' =>
      let parameter_in := Id (u "parameter_in") m in
      let name := Id (u "name") m in
      let description := Id (u "description") m in
      let scheme := Id (u "scheme") m in
      SBlock
        ([SLet parameter_in (EVal (XIn InHeader)); SLet name (EVal XMissing); SLet description none] ++
         map (expand_key_prop parameter_in name description) props ++
         [SLet scheme (EStruct NApiKey [(Fparameter_in, EVar parameter_in); (Fname, EVar name); (Fdescription, EVar description)]);
          SInsert result (Some Fcomponents_security_schemes) (text n) (EVar scheme)])
      :: expand_schemes (1 :: m) result l'
  end.

(** macros.rs:696-712 *)
Definition expand_param_prop (result context : ident) (p : xparam_prop) : stmt :=
  match p with
  | XpDescription e => SSet context Fdescription (some (text e))
  | XpRequired e => SSet context Frequired (EUser e)
  | XpDeprecated e => SSet context Fdeprecated (EUser e)
  | XpSchema t => SSet context Fschema (some (EMention result t))
  end.
(** macros.rs:639-693 *)
Definition parameter_literal (i : parameter_in) (required : bool) (schema : rexpr) : rexpr :=
  EStruct NOperationParameter
    [(Fdescription, none); (Fparameter_in, EVal (XIn i)); (Frequired, EVal (XBool required)); (Fdeprecated, EVal (XBool false)); (Fschema, some schema)].
Fixpoint expand_params (m : mark) (result context : ident) (l : list xparam_decl) : list stmt :=
  match l with
  | [] => []
  | XdHeader n props :: l' =>
      let parameter := Id (u "parameter") m in
      SBlock (SLet parameter (parameter_literal InHeader true (EMention result (TPrim PString))) ::
              map (expand_param_prop result parameter) props ++ [SInsert context (Some Fparameters) (text n) (EVar parameter)])
      :: expand_params (1 :: m) result context l'
  | XdQuery n t props :: l' =>
      let parameter := Id (u "parameter") m in
      SBlock (SLet parameter (parameter_literal InQuery false (EMention result t)) ::
              map (expand_param_prop result parameter) props ++ [SInsert context (Some Fparameters) (lit n) (EVar parameter)])
      :: expand_params (1 :: m) result context l'
  end.

(** macros.rs:595-607 *)
Definition expand_body_prop (result description required schema : ident) (p : body_prop) : stmt :=
  match p with
  | BpSchema t => SLet schema (EMention result t)
  | BpDescription s => SAssign description (some (lit s))
  | BpRequired b => SAssign required (EVal (XBool b))
  end.
(** macros.rs:525-544 *)
Definition expand_body (m : mark) (result context : ident) (b : body_decl) : list stmt :=
  match b with
  | BodyProps l =>
      let description := Id (u "description") m in
      let required := Id (u "required") m in
      let schema := Id (u "schema") m in
      [SLet description none; SLet required (EVal (XBool true)); SLet schema (EVal XMissing)] ++
      map (expand_body_prop result description required schema) l ++
      [SCall context Mwith_request_body
         (EStruct NRequestBody [(Fdescription, EOr (EVar description) (some (lit []))); (Frequired, EVar required); (Fschema, EVar schema)])]
  | BodyType t =>
      [SCall context Mwith_request_body
         (EStruct NRequestBody [(Fdescription, some (lit [])); (Frequired, EVal (XBool true)); (Fschema, EMention result t)])]
  end.
(** macros.rs:545-572 *)
Definition expand_response (result context : ident) (code : N) (description : option str) (s : xresponse_schema) : list stmt :=
  [SInsert context (Some Fresponses) (EVal (XNum code))
     (EStruct NResponse
        [(Fdescription, EUnwrapOrElse (EExtract (option_map lit description)) (EUnwrapOrElse (EReason code) (lit [])));
         (Fschema, match s with
                   | XrNone => none
                   | XrUnit => some (EMention result (TPrim PUnit))
                   | XrType t => some (EMention result t)
                   | XrRaw e => EUser e
                   end)])].
(** macros.rs:587-592 *)
Definition expand_security_item (result security : ident) (i : xsecurity_item) : stmt :=
  match i with
  | XiLit n roles => SInsert security None (lit n) (EVec (map (fun r => EVal (XLit r)) roles))
  | XiIdent n roles =>
      SInsert security None (EMentionScheme result (lit n) (EVar (Id n []))) (EVec (map (fun r => EVal (XLit r)) roles))
  end.
(** macros.rs:576-584 *)
Fixpoint expand_security (m : mark) (result context : ident) (l : list (list xsecurity_item)) : list stmt :=
  match l with
  | [] => []
  | [] :: l' => SNoRule :: expand_security (1 :: m) result context l'
  | r :: l' =>
      let security := Id (u "security") m in
      SBlock (SLet security (EVal (XRequirement [])) :: map (expand_security_item result security) r ++
              [SPush context (Some Fsecurity) (EVar security)])
      :: expand_security (1 :: m) result context l'
  end.

Section Expand.
  (** how a group of tokens is matched and resolved by [@opg_path_url] *)
  Variable seg : list tree -> option segment.

  (** macros.rs:738-747 [@opg_path_insert_url_param] *)
  Definition insert_url_param (result context name : ident) (t : ty) : rexpr :=
    EBlock [SInsert context (Some Fparameters) (EVar name) (parameter_literal InPath true (EMention result t))]
      (ECon CPathElementParameter (EVar name)).
  (** macros.rs:715-736 [@opg_path_url]; [k]: the place of the segment.  The inner [name] of 722 stands in a block of its own. *)
  Definition expand_segment (m : mark) (path result context : ident) (s : segment) : stmt :=
    match s with
    | SegLit l => SPush path None (ECon CPathElementPath (lit l))
    | SegType text t =>
        let name := Id (u "name") m in
        let full_name := Id (u "full_name") m in
        SPush path None
          (EBlock [SLet name
                     (EBlock [SLet full_name (EVal (XLit text)); SLet name (EAfterColon (EVar full_name))]
                        (EConcat (EToLowercase (EFirst (EVar name))) (ERest (EVar name))))]
             (insert_url_param result context name t))
    | SegNamed n t =>
        let name := Id (u "name") m in
        SPush path None (EBlock [SLet name (lit n)] (insert_url_param result context name t))
    end.
  (** macros.rs:463-472 *)
  Fixpoint expand_groups (m : mark) (path result context : ident) (l : list (list utok)) : list stmt :=
    match l with
    | [] => []
    | g :: l' =>
        match group_text g with
        | Some ts => match seg ts with Some s => expand_segment (0 :: m) path result context s | None => SNoRule end
        | None => SNoRule
        end :: expand_groups (1 :: m) path result context l'
    end.
  Definition expand_url (m : mark) (path result context : ident) (url : list utok) : list stmt :=
    match munch url [] with Some l => expand_groups m path result context l | None => [SNoRule] end.

  Section Nested.
    (** macros.rs:626-637 for the paths of a callback, with the place of the callback and the variable of its object *)
    Variable expand_callback_paths : mark -> ident -> ident -> xcallback_decl -> list stmt.
    (** macros.rs:609-624 *)
    Fixpoint expand_callbacks (trailing : bool) (m : mark) (result context : ident) (l : list xcallback_decl) : list stmt :=
      match l with
      | [] => []
      | c :: l' =>
          let callback_object := Id (u "callback_object") m in
          match c with
          | XcLit n _ =>
              match l', trailing with
              (* 611: given what follows, which must be nothing *)
              | [], false => [SLet callback_object ECallbackObject; SInsert context (Some Fcallbacks) (lit n) (EVar callback_object)]
              | _, _ => [SNoRule]
              end
          | XcIdent n _ =>
              [SLet callback_object ECallbackObject] ++
              expand_callback_paths (0 :: m) result callback_object c ++
              [SInsert context (Some Fcallbacks) (lit n) (EVar callback_object)] ++ expand_callbacks trailing (1 :: m) result context l'
          end
      end.
    (** macros.rs:493-574 *)
    Definition expand_op_prop (m : mark) (result context : ident) (p : xop_prop xcallback_decl) : list stmt :=
      match p with
      | XoSummary e => [SCall context Mwith_summary (EUser e)]
      | XoId e => [SCall context Mwith_operation_id (EUser e)]
      | XoDescription e => [SCall context Mwith_description (EUser e)]
      | XoDeprecated e => [SCall context Mmark_deprecated (EUser e)]
      | XoTags l => map (fun t => SPush context (Some Ftags) (lit t)) l
      | XoParameters l => expand_params m result context l
      | XoCallbacks l trailing => expand_callbacks trailing m result context l
      | XoSecurity l => expand_security m result context l
      | XoBody b => expand_body m result context b
      | XoResponse code d s => expand_response result context code d s
      end.
    Fixpoint expand_operation (m : mark) (result context : ident) (l : list (xop_prop xcallback_decl)) : list stmt :=
      match l with [] => [] | p :: l' => expand_op_prop (0 :: m) result context p ++ expand_operation (1 :: m) result context l' end.
    (** macros.rs:475-490 *)
    Definition expand_path_prop (m : mark) (result context : ident) (p : xpath_prop xcallback_decl) : list stmt :=
      match p with
      | XvSummary s => [SSet context Fsummary (some (lit s))]
      | XvDescription s => [SSet context Fdescription (some (lit s))]
      | XvParameters l => expand_params m result context l
      | XvMethod me l =>
          let operation := Id (u "operation") m in
          [SLet operation (EVal (XOperation operation_default))] ++
          expand_operation (0 :: m) result operation l ++
          [SInsert context (Some Foperations) (EVal (XMethod me)) (EVar operation)]
      end.
    Fixpoint expand_path_props (m : mark) (result context : ident) (l : list (xpath_prop xcallback_decl)) : list stmt :=
      match l with [] => [] | p :: l' => expand_path_prop (0 :: m) result context p ++ expand_path_props (1 :: m) result context l' end.
    (** macros.rs:452-460, 629-636: [target] is the document or the object of a callback *)
    Definition expand_path (m : mark) (result target : ident) (d : xpath_decl) : stmt :=
      let path := Id (u "path") m in
      let context := Id (u "context") m in
      SBlock ([SLet path (EVal (XSegments [])); SLet context (EVal (XPathValue path_value_default))] ++
              expand_url (0 :: m) path result context (xd_url d) ++
              expand_path_props (1 :: m) result context (xd_props d) ++
              [SPush target (Some Fpaths) (EPair (ECon CPath (EVar path)) (EVar context))]).
  End Nested.
  (** macros.rs:626-637; the places of the paths of one expansion share it: their variables stand in blocks of their own *)
  Fixpoint expand_callback_paths (m : mark) (result target : ident) (c : xcallback_decl) : list stmt :=
    match c with
    | XcLit _ _ => []
    | XcIdent _ paths => map (expand_path expand_callback_paths m result target) paths
    end.

  (** macros.rs:340, 352, 359, 369, 449 *)
  Definition expand_section (m : mark) (result : ident) (s : xsection) : list stmt :=
    match s with
    | XcInfo l => expand_info result l
    | XcTags l => expand_tags result l
    | XcServers l => expand_servers result l
    | XcSecurity l => expand_schemes m result l
    | XcPaths l => [SBlock (map (expand_path expand_callback_paths m result result) l)]
    end.
  Fixpoint expand_sections (m : mark) (result : ident) (l : xapi) : list stmt :=
    match l with [] => [] | s :: l' => expand_section (0 :: m) result s ++ expand_sections (1 :: m) result l' end.
  (** macros.rs:333-337 *)
  Definition expand_api (l : xapi) : rexpr :=
    let result := Id (u "result") [0] in
    EBlock (SLet result (EVal (XOpg opg_default)) :: expand_sections [1] result l) (EVar result).
End Expand.

(** The value of the invocation where the variables of the caller are [s]. *)
Definition run_api (E : env) (fuel : nat) (reason : N -> option str) (imported : bool) (seg : list tree -> option segment) (s : scope) (l : xapi)
  : outcome opg :=
  get (v, _) <- eval E fuel reason imported (expand_api seg l) (map (fun b => (Id (fst b) [], snd b)) s);
  match v with XOpg d => Done d | _ => Rejected end.
