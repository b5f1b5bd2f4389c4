(** Model of the code that [describe_type!] writes (opg/src/macros.rs:19-163), as Rust expressions and statements, and of running it.

    Api.v says directly which model a description stands for.  Here the right-hand sides of the rules are transcribed as they
    stand: which variables are declared where, what is inserted and pushed, where the variables that the caller names are put, and
    which of them are moved.  Identifiers carry the expansion that they were written in, as in Expand.v.

    Simplified: the calls [to_string] and [to_owned] of literals are their texts; [vec!] and struct literals are what they build. *)
From Verif Require Import Expand.
From Verif Require Export Api.
Local Open Scope string_scope. Local Open Scope list_scope.

(** ** [FromStrangeTuple] *)
(** macros.rs:3-17: what [$(...)?] leaves between the parentheses of a tuple, [()] or [(x,)] *)
Inductive strange (A : Type) := Nothing | Just (a : A).
Arguments Nothing {A}. Arguments Just {A}.
Definition extract {A} (t : strange A) : option A := match t with Nothing => None | Just a => Some a end.
(** [($($x,)?)] for an optional part of the invocation *)
Definition tuple {A} (o : option A) : strange A := match o with None => Nothing | Some a => Just a end.

(** ** The code *)
(** expressions for a [Model], a [ModelData], a [ModelTypeDescription] and a [ModelReference], and the statements *)
Inductive mexpr :=
| MVar (x : ident)
| MStruct (description : strange str) (data : dexpr)
| MBlock (ss : list tstmt) (result : mexpr)
with dexpr :=
| DVar (x : ident)
| DSingle (nullable : bool) (td : texpr)
with texpr :=
| TString (variants : strange (list str)) (format example : strange str)
| TNumber (format example : strange str)
| TInteger (format example : strange str)
| TBoolean
| TArray (items : rexpr)
| TObject (properties required : ident)             (* [ModelObject { properties, required, ..Default::default() }] *)
with rexpr :=
| RLink (s : str)                                   (* [ModelReference::Link("..".to_owned())] *)
| RLinkVar (x : ident)                              (* [ModelReference::Link(x.to_owned())] *)
| RInline (m : mexpr)
with tstmt :=
| LetMap (x : ident)                                (* [let mut x = BTreeMap::new();] *)
| LetVec (x : ident)                                (* [let mut x = Vec::new();] *)
| Insert (x : ident) (k : str) (v : rexpr)          (* [x.insert("k".to_string(), v);] *)
| Push (x : ident) (k : str).                       (* [x.push("k".to_owned());] *)

(** ** Running it *)
Inductive tval := VText (s : str) | VModel (m : model) | VData (d : model_data) | VMap (p : bmap str model_ref) | VVec (l : list str).
(** a variable has a value, or its value was moved elsewhere: then the compiler rejects any further use *)
Inductive slot := Has (v : tval) | Moved.
Definition tframe := list (ident * slot).
Fixpoint tlookup (x : ident) (e : tframe) : option slot :=
  match e with [] => None | (y, s) :: e' => if ident_eq_dec x y then Some s else tlookup x e' end.
Fixpoint tassign (x : ident) (s : slot) (e : tframe) : tframe :=
  match e with [] => [] | (y, s') :: e' => if ident_eq_dec x y then (y, s) :: e' else (y, s') :: tassign x s e' end.
(** a use by value of something that is not [Copy] *)
Definition move (x : ident) (e : tframe) : option (tval * tframe) :=
  match tlookup x e with Some (Has v) => Some (v, tassign x Moved e) | _ => None end.
Definition tleave (before after : tframe) : tframe := skipn (length after - length before) after.

(** [None]: the code does not compile (there are no branches, so what is wrong is wrong in every run) *)
Definition run_stmts (run : tstmt -> tframe -> option tframe) :=
  fix go (l : list tstmt) (e : tframe) : option tframe :=
    match l with [] => Some e | s :: l' => match run s e with Some e' => go l' e' | None => None end end.
Fixpoint eval_m (c : mexpr) (e : tframe) : option (model * tframe) :=
  match c with
  | MVar x => match move x e with Some (VModel m, e') => Some (m, e') | _ => None end
  | MStruct description data =>
      match eval_d data e with Some (d, e') => Some (Model (extract description) d, e') | None => None end
  | MBlock ss result =>
      match run_stmts run ss e with
      | Some e1 => match eval_m result e1 with Some (m, e2) => Some (m, tleave e e2) | None => None end
      | None => None
      end
  end
with eval_d (c : dexpr) (e : tframe) : option (model_data * tframe) :=
  match c with
  | DVar x => match move x e with Some (VData d, e') => Some (d, e') | _ => None end
  | DSingle nullable td => match eval_t td e with Some (t, e') => Some (Single (MType nullable t), e') | None => None end
  end
with eval_t (c : texpr) (e : tframe) : option (type_desc * tframe) :=
  match c with
  | TString v f x => Some (TdString {| mst_variants := extract v; mst_data := mk_simple (extract f) (extract x) |}, e)
  | TNumber f x => Some (TdNumber (mk_simple (extract f) (extract x)), e)
  | TInteger f x => Some (TdInteger (mk_simple (extract f) (extract x)), e)
  | TBoolean => Some (TdBoolean, e)
  | TArray items => match eval_r items e with Some (r, e') => Some (TdArray r, e') | None => None end
  | TObject properties required =>
      match move properties e with
      | Some (VMap p, e1) => match move required e1 with Some (VVec l, e2) => Some (TdObject (MObject p None l), e2) | _ => None end
      | _ => None
      end
  end
with eval_r (c : rexpr) (e : tframe) : option (model_ref * tframe) :=
  match c with
  | RLink s => Some (Link s, e)
  | RLinkVar x => match tlookup x e with Some (Has (VText s)) => Some (Link s, e) | _ => None end   (* a borrow *)
  | RInline m => match eval_m m e with Some (m', e') => Some (Inline m', e') | None => None end
  end
with run (s : tstmt) (e : tframe) : option tframe :=
  match s with
  | LetMap x => Some ((x, Has (VMap [])) :: e)
  | LetVec x => Some ((x, Has (VVec [])) :: e)
  | Insert x k v =>
      match eval_r v e with
      | Some (r, e') => match tlookup x e' with Some (Has (VMap p)) => Some (tassign x (Has (VMap (bm_insert k r p))) e') | _ => None end
      | None => None
      end
  | Push x k => match tlookup x e with Some (Has (VVec l)) => Some (tassign x (Has (VVec (l ++ [k]))) e) | _ => None end
  end.

(** ** The rules *)
(** what the invocation says, with the variables of the caller by name *)
Inductive xdescribe :=
| XtRawModel (v : str)
| XtRawType (description : option str) (v : str)
| XtString (description format example : option str) (variants : option (list str))
| XtNumber (description format example : option str)
| XtInteger (description format example : option str)
| XtBoolean (description : option str)
| XtArray (description : option str) (items : xvalue)
| XtObject (description : option str) (properties : list (str * bool * xvalue))
with xvalue := XvLink (l : str) | XvVar (v : str) | XvInline (d : xdescribe).

(** [{ description, data: Single(ModelType { nullable: false, type_description }) }] *)
Definition plain_model (description : option str) (td : texpr) : mexpr := MStruct (tuple description) (DSingle false td).
Section Rules.
  Variable expand_value : mark -> xvalue -> rexpr.
  (** macros.rs:127 with 142-150, for the properties from the [i]th *)
  Fixpoint expand_properties (m : mark) (properties required : ident) (i : nat) (l : list (str * bool * xvalue)) : list tstmt :=
    match l with
    | [] => []
    | (k, req, v) :: l' =>
        Insert properties k (expand_value (i :: m) v) :: (if req then [Push required k] else []) ++ expand_properties m properties required (S i) l'
    end.
End Rules.
(** [m] is the mark of the expansion *)
Fixpoint expand_type (m : mark) (d : xdescribe) : mexpr :=
  match d with
  | XtRawModel v => MVar (Id v [])                                                                   (* 21-23 *)
  | XtRawType description v => MStruct (tuple description) (DVar (Id v []))                           (* 25-33 *)
  | XtString description f e v => plain_model description (TString (tuple v) (tuple f) (tuple e))     (* 35-54 *)
  | XtNumber description f e => plain_model description (TNumber (tuple f) (tuple e))                 (* 56-71 *)
  | XtInteger description f e => plain_model description (TInteger (tuple f) (tuple e))               (* 73-88 *)
  | XtBoolean description => plain_model description TBoolean                                         (* 90-100 *)
  | XtArray description items => plain_model description (TArray (expand_value (0 :: m) items))       (* 102-115 *)
  | XtObject description l =>                                                                         (* 117-140 *)
      let properties := Id (u "properties") m in
      let required := Id (u "required") m in
      MBlock (LetMap properties :: LetVec required :: expand_properties expand_value m properties required 0 l)
        (plain_model description (TObject properties required))
  end
with expand_value (m : mark) (v : xvalue) : rexpr :=
  match v with
  | XvLink s => RLink s                                                                              (* 152-154 *)
  | XvVar v => RLinkVar (Id v [])                                                                    (* 156-158 *)
  | XvInline d => RInline (expand_type (0 :: m) d)                                                   (* 160-162 *)
  end.

(** an invocation among variables of the caller: its value, and the variables afterwards *)
Definition run_type (m : mark) (d : xdescribe) (e : tframe) : option (model * tframe) := eval_m (expand_type m d) e.
