(** The fragment of Rust in which the impls of [OpgModel] are written: expressions, and what running them does.

    Names of variables, fields, variants, structs, functions and methods are enumerated; [Box] is kept, references are
    transparent ([&e] is the value of [e], [&mut Components] is the one [Components]).  What the fragment leaves out is
    [Wrong], as is everything that rustc would reject.  [apply_params] and [try_merge] are the functions of Schema.v. *)
From Verif Require Export Gen.

(** ** Syntax *)
Inductive var :=
| V_cx | V_self | V_inline | V_params                          (* parameters *)
| V_properties | V_required | V_model | V_additional_object | V_item_model | V_reference | V_structure | V_link.
Inductive fld :=
| Fd_description | Fd_data | Fd_nullable | Fd_type_description | Fd_variants | Fd_format | Fd_example | Fd_items
| Fd_properties | Fd_additional_properties | Fd_required | Fd_one_of.
(** [Some], [None]; [ModelData::Single], [::OneOf]; [ModelTypeDescription::..]; [ModelReference::..] *)
Inductive ctor :=
| C_Some | C_None | C_Single | C_OneOf
| C_String | C_Number | C_Integer | C_Boolean | C_Array | C_Object
| C_Link | C_Inline | C_Any.
Inductive strukt :=
| S_Model | S_ModelType | S_ModelString | S_ModelSimple | S_ModelArray | S_ModelObject | S_ModelOneOf | S_ContextParams.
(** [std::collections::BTreeMap::new], [Vec::new], [Box::new], [Default::default], [$crate::macros::FromStrangeTuple::extract] *)
Inductive func := F_map_new | F_vec_new | F_box_new | F_default | F_extract.
Inductive meth := M_to_owned | M_to_string | M_into | M_into_owned | M_apply_params | M_insert | M_push | M_try_merge | M_contains_key.
(** the functions of the trait *)
Inductive tfun := T_get_schema | T_type_name | T_get_schema_with_params | T_select_reference.

Inductive pat := P_wild | P_ctor (c : ctor) (x : var).

Inductive expr :=
| EStr (s : str)                                            (* "s" *)
| EBool (b : bool)
| EUser (src : str)                                         (* an expression given in an attribute *)
| EStringify (ident : str)                                  (* stringify!(ident) *)
| EVar (x : var)
| ESchemas (x : var)                                        (* x.schemas *)
| ECtor (c : ctor) (args : list expr)                       (* C, C(e, ..) *)
| EStruct (s : strukt) (fs : list (fld * expr)) (rest : bool) (* S { f: e, .. }, with ..Default::default() if [rest] *)
| EFun (f : func) (args : list expr)
| EMeth (e : expr) (m : meth) (args : list expr)            (* e.m(e, ..) *)
| EMention (e : expr) (t : ty) (args : list expr)           (* e.mention_schema::<t>(e, ..) *)
| ETrait (t : ty) (f : tfun) (args : list expr)             (* <t as OpgModel>::f(e, ..) *)
| EVec (l : list expr)                                      (* vec![e, ..] *)
| ETuple (l : list expr)                                    (* (e, ..) *)
| EFormat (fmt : str) (args : list expr)                    (* format!("fmt", e, ..) *)
| ERef (e : expr)                                           (* &e *)
| EParen (e : expr)                                         (* (e) *)
| ENot (e : expr)                                           (* !e *)
| EBlock (ss : list stmt) (e : expr)                        (* { ss e } *)
| EUnit                                                     (* the value of a block that ends in a statement *)
| EIf (c e : expr)                                          (* if c { e } *)
| EIfLet (p : pat) (c e : expr)                             (* if let p = c { e } *)
| EMatch (e : expr) (p : pat) (guard : option expr) (e1 e2 : expr)  (* match e { p if guard => e1, _ => e2 } *)
with stmt :=
| SLet (x : var) (e : expr)                                 (* let x = e; let mut x = e; *)
| SLetUnder (e : expr)                                      (* let _ = e; *)
| SExpr (e : expr)                                          (* e; *)
| SEmpty.                                                   (* ; *)

(** ** Values *)
Inductive value :=
| VlStr (s : str)              (* str, String, Cow<str> *)
| VlBool (b : bool)
| VlUser (src : str)           (* whatever an expression of an attribute gives *)
| VlUnit
| VlTuple (l : list value)
| VlOpt (o : option value)
| VlBox (v : value)
| VlVec (l : list value)
| VlMap (m : bmap str value)
| VlResult (ok : bool)         (* Result<(), ModelMergeError> *)
| VlSimple (s : model_simple)
| VlString (s : model_string)
| VlArray (items : model_ref)
| VlObject (o : model_object)
| VlOneOf (l : list model_ref)
| VlDesc (td : type_desc)
| VlType (t : model_type)
| VlData (d : model_data)
| VlModel (m : model)
| VlRef (r : model_ref)
| VlParams (p : params)
| VlCx.                        (* &mut Components *)

Definition as_str (v : value) : option str := match v with VlStr s => Some s | _ => None end.
Definition as_bool (v : value) : option bool := match v with VlBool b => Some b | _ => None end.
Definition as_simple (v : value) : option model_simple := match v with VlSimple s => Some s | _ => None end.
Definition as_desc (v : value) : option type_desc := match v with VlDesc t => Some t | _ => None end.
Definition as_data (v : value) : option model_data := match v with VlData d => Some d | _ => None end.
Definition as_ref (v : value) : option model_ref := match v with VlRef r => Some r | _ => None end.
Definition as_boxed {A} (f : value -> option A) (v : value) : option A := match v with VlBox v' => f v' | _ => None end.
Definition as_option {A} (f : value -> option A) (v : value) : option (option A) :=
  match v with
  | VlOpt None => Some None
  | VlOpt (Some v') => match f v' with Some a => Some (Some a) | None => None end
  | _ => None
  end.
Fixpoint all_values {A} (f : value -> option A) (l : list value) : option (list A) :=
  match l with
  | [] => Some []
  | v :: l' => match f v, all_values f l' with Some a, Some l'' => Some (a :: l'') | _, _ => None end
  end.
Definition as_vec {A} (f : value -> option A) (v : value) : option (list A) := match v with VlVec l => all_values f l | _ => None end.
Fixpoint all_entries {A} (f : value -> option A) (m : bmap str value) : option (bmap str A) :=
  match m with
  | [] => Some []
  | (k, v) :: m' => match f v, all_entries f m' with Some a, Some m'' => Some ((k, a) :: m'') | _, _ => None end
  end.
Definition as_map {A} (f : value -> option A) (v : value) : option (bmap str A) := match v with VlMap m => all_entries f m | _ => None end.

(** ** Struct literals: every field once, and no others; missing ones only with [..Default::default()] *)
Scheme Equality for fld.
Definition field_of (f : fld) (fs : list (fld * value)) : option value :=
  match find (fun x => fld_beq (fst x) f) fs with Some x => Some (snd x) | None => None end.
Fixpoint distinct (l : list fld) : bool := match l with [] => true | f :: l' => negb (existsb (fld_beq f) l') && distinct l' end.
(** [fs] gives fields out of [names], each once *)
Definition fields_of (names : list fld) (fs : list (fld * value)) : bool :=
  distinct (map fst fs) && forallb (fun f => existsb (fld_beq f) names) (map fst fs).
Definition required_field {A} (as_a : value -> option A) (f : fld) (fs : list (fld * value)) : option A :=
  match field_of f fs with Some v => as_a v | None => None end.
Definition default_field {A} (as_a : value -> option A) (d : A) (rest : bool) (f : fld) (fs : list (fld * value)) : option A :=
  match field_of f fs with Some v => as_a v | None => if rest then Some d else None end.

(** The structs of models.rs: 639-647, 780-788, 853-861, 884-892, 911-913, 929-943 (the one with [Default]), 720-722, and
    615-632 ([Default] too). *)
Definition build (s : strukt) (fs : list (fld * value)) (rest : bool) : option value :=
  match s with
  | S_Model =>
      if negb rest && fields_of [Fd_description; Fd_data] fs then
        match required_field (as_option as_str) Fd_description fs, required_field as_data Fd_data fs with
        | Some d, Some x => Some (VlModel (Model d x))
        | _, _ => None
        end
      else None
  | S_ModelType =>
      if negb rest && fields_of [Fd_nullable; Fd_type_description] fs then
        match required_field as_bool Fd_nullable fs, required_field as_desc Fd_type_description fs with
        | Some n, Some t => Some (VlType (MType n t))
        | _, _ => None
        end
      else None
  | S_ModelString =>
      if negb rest && fields_of [Fd_variants; Fd_data] fs then
        match required_field (as_option (as_vec as_str)) Fd_variants fs, required_field as_simple Fd_data fs with
        | Some v, Some x => Some (VlString {| mst_variants := v; mst_data := x |})
        | _, _ => None
        end
      else None
  | S_ModelSimple =>
      if negb rest && fields_of [Fd_format; Fd_example] fs then
        match required_field (as_option as_str) Fd_format fs, required_field (as_option as_str) Fd_example fs with
        | Some f, Some e => Some (VlSimple {| ms_format := f; ms_example := e |})
        | _, _ => None
        end
      else None
  | S_ModelArray =>
      if negb rest && fields_of [Fd_items] fs then
        match required_field (as_boxed as_ref) Fd_items fs with Some r => Some (VlArray r) | None => None end
      else None
  | S_ModelOneOf =>
      if negb rest && fields_of [Fd_one_of] fs then
        match required_field (as_vec as_ref) Fd_one_of fs with Some l => Some (VlOneOf l) | None => None end
      else None
  | S_ModelObject =>
      if fields_of [Fd_properties; Fd_additional_properties; Fd_required] fs then
        match default_field (as_map as_ref) [] rest Fd_properties fs,
              default_field (as_option (as_boxed as_ref)) None rest Fd_additional_properties fs,
              default_field (as_vec as_str) [] rest Fd_required fs with
        | Some p, Some a, Some r => Some (VlObject (MObject p a r))
        | _, _, _ => None
        end
      else None
  | S_ContextParams =>
      if fields_of [Fd_description; Fd_nullable; Fd_variants; Fd_format; Fd_example] fs then
        match default_field (as_option as_str) None rest Fd_description fs,
              default_field (as_option as_bool) None rest Fd_nullable fs,
              default_field (as_option (as_vec as_str)) None rest Fd_variants fs,
              default_field (as_option as_str) None rest Fd_format fs,
              default_field (as_option as_str) None rest Fd_example fs with
        | Some d, Some n, Some v, Some f, Some e => Some (VlParams (Build_params d n v f e))
        | _, _, _, _, _ => None
        end
      else None
  end.

(** ** Enum variants: [Option]; models.rs:689-694, 822-829, 1008-1019 *)
Definition construct (c : ctor) (args : list value) : option value :=
  match c, args with
  | C_Some, [v] => Some (VlOpt (Some v))
  | C_None, [] => Some (VlOpt None)
  | C_Single, [VlType t] => Some (VlData (Single t))
  | C_OneOf, [VlOneOf l] => Some (VlData (OneOf l))
  | C_String, [VlString s] => Some (VlDesc (TdString s))
  | C_Number, [VlSimple s] => Some (VlDesc (TdNumber s))
  | C_Integer, [VlSimple s] => Some (VlDesc (TdInteger s))
  | C_Boolean, [] => Some (VlDesc TdBoolean)
  | C_Array, [VlArray r] => Some (VlDesc (TdArray r))
  | C_Object, [VlObject o] => Some (VlDesc (TdObject o))
  | C_Link, [VlStr s] => Some (VlRef (Link s))
  | C_Inline, [VlModel m] => Some (VlRef (Inline m))
  | C_Any, [] => Some (VlRef Any)
  | _, _ => None
  end.
(** does the value have the form of the pattern, and what is bound then *)
Definition matches (p : pat) (v : value) : option (list (var * value)) :=
  match p, v with
  | P_wild, _ => Some []
  | P_ctor C_Some x, VlOpt (Some v') => Some [(x, v')]
  | P_ctor C_Link x, VlRef (Link l) => Some [(x, VlStr l)]
  | P_ctor C_Inline x, VlRef (Inline m) => Some [(x, VlModel m)]
  | _, _ => None
  end.

(** [format!] with [{}] alone *)
Fixpoint format_str (fmt : str) (args : list str) : option str :=
  match fmt with
  | 123 :: 125 :: fmt' => match args with a :: args' => option_map (app a) (format_str fmt' args') | [] => None end
  | c :: fmt' => option_map (cons c) (format_str fmt' args)
  | [] => match args with [] => Some [] | _ => None end
  end%N.

(** ** Running *)
(** a value, stuck, or no value after the given number of nested calls *)
Inductive out (A : Type) := Val (a : A) | Wrong | NoReturn.
Arguments Val {A} _. Arguments Wrong {A}. Arguments NoReturn {A}.
Definition obind {A B} (x : out A) (f : A -> out B) : out B := match x with Val a => f a | Wrong => Wrong | NoReturn => NoReturn end.
Notation "'run' p <- x ; f" := (obind x (fun p => f)) (at level 200, p pattern, x at level 100, f at level 200).
Definition known {A} (o : option A) : out A := match o with Some a => Val a | None => Wrong end.

Scheme Equality for var.
(** the local variables, the innermost first *)
Definition frame := list (var * value).
Fixpoint look (x : var) (fr : frame) : option value :=
  match fr with [] => None | (y, v) :: fr' => if var_beq y x then Some v else look x fr' end.
Fixpoint assign (x : var) (v : value) (fr : frame) : frame :=
  match fr with [] => [] | (y, w) :: fr' => if var_beq y x then (y, v) :: fr' else (y, w) :: assign x v fr' end.
(** the variables that were there before a block *)
Definition leave (before after : frame) : frame := skipn (length after - length before) after.

(** the functions that run on [Components]: [<t as OpgModel>::f] and [Components::mention_schema::<t>] *)
Inductive callee := Of (t : ty) (f : tfun) | Mention (t : ty).

Section Run.
  (** what a user expression's [.to_string()] gives (as in Derive.v) *)
  Variable eval_expr : str -> str.
  Variable call : callee -> list value -> components -> out (value * components).

  Definition state := (frame * components)%type.
  Definition result := out (value * state).

  Definition apply_fun (f : func) (args : list value) : option value :=
    match f, args with
    | F_map_new, [] => Some (VlMap [])
    | F_vec_new, [] => Some (VlVec [])
    | F_box_new, [v] => Some (VlBox v)
    | F_default, [] => Some (VlParams params_default)    (* only used where [&ContextParams] is expected *)
    | F_extract, [VlTuple []] => Some (VlOpt None)       (* macros.rs:1-17 *)
    | F_extract, [VlTuple [v]] => Some (VlOpt (Some v))
    | _, _ => None
    end.
  (** methods on values *)
  Definition apply_meth (m : meth) (v : value) (args : list value) : option value :=
    match m, v, args with
    | M_to_owned, VlStr s, [] | M_to_string, VlStr s, [] | M_into, VlStr s, [] | M_into_owned, VlStr s, [] => Some (VlStr s)
    | M_to_string, VlUser e, [] => Some (VlStr (eval_expr e))
    | M_apply_params, VlModel m, [VlParams p] => Some (VlModel (apply_params p m))
    | _, _, _ => None
    end.
  (** methods on variables ([&self], [&mut self]): the result and the new value of the variable *)
  Definition apply_mut (m : meth) (v : value) (args : list value) : option (value * value) :=
    match m, v, args with
    | M_insert, VlMap mp, [VlStr k; x] => Some (VlOpt (bm_get k mp), VlMap (bm_insert k x mp))
    | M_push, VlVec l, [x] => Some (VlUnit, VlVec (l ++ [x]))
    | M_try_merge, VlModel a, [VlModel b] => let (c, ok) := try_merge a b in Some (VlResult ok, VlModel c)
    | _, _, _ => None
    end.
  (** methods on [self.schemas] *)
  Definition apply_schemas (m : meth) (args : list value) (cx : components) : option (value * components) :=
    match m, args with
    | M_contains_key, [VlStr k] => Some (VlBool (bm_mem k (cx_schemas cx)), cx)
    | M_insert, [VlStr k; VlModel x] => Some (VlOpt (option_map VlModel (bm_get k (cx_schemas cx))), cx_insert_schema k x cx)
    | _, _ => None
    end.
  Definition on_place (m : meth) : bool := match m with M_insert | M_push | M_try_merge | M_contains_key => true | _ => false end.

  Section List.
    Variable ev : expr -> state -> result.
    Fixpoint eval_list (l : list expr) (s : state) : out (list value * state) :=
      match l with
      | [] => Val ([], s)
      | e :: l' => run (v, s1) <- ev e s; run (vs, s2) <- eval_list l' s1; Val (v :: vs, s2)
      end.
    Fixpoint eval_fields (l : list (fld * expr)) (s : state) : out (list (fld * value) * state) :=
      match l with
      | [] => Val ([], s)
      | (f, e) :: l' => run (v, s1) <- ev e s; run (vs, s2) <- eval_fields l' s1; Val ((f, v) :: vs, s2)
      end.
    Variable evs : stmt -> state -> out state.
    Fixpoint exec_list (l : list stmt) (s : state) : out state :=
      match l with [] => Val s | st :: l' => run s1 <- evs st s; exec_list l' s1 end.
  End List.

  (** arguments and fields are evaluated from left to right *)
  Fixpoint eval (e : expr) (s : state) {struct e} : result :=
    match e with
    | EStr x | EStringify x => Val (VlStr x, s)
    | EBool b => Val (VlBool b, s)
    | EUser src => Val (VlUser src, s)
    | EUnit => Val (VlUnit, s)
    | EVar x => run v <- known (look x (fst s)); Val (v, s)
    | ESchemas _ => Wrong
    | ECtor c args => run (vs, s1) <- eval_list eval args s; run v <- known (construct c vs); Val (v, s1)
    | EStruct t fs rest => run (vs, s1) <- eval_fields eval fs s; run v <- known (build t vs rest); Val (v, s1)
    | EFun f args => run (vs, s1) <- eval_list eval args s; run v <- known (apply_fun f vs); Val (v, s1)
    | EMeth r m args =>
        if on_place m then
          run (vs, s1) <- eval_list eval args s;
          match r with
          | EVar x =>
              run v <- known (look x (fst s1));
              run (a, v') <- known (apply_mut m v vs);
              Val (a, (assign x v' (fst s1), snd s1))
          | ESchemas x =>
              match look x (fst s1) with
              | Some VlCx => run (a, cx') <- known (apply_schemas m vs (snd s1)); Val (a, (fst s1, cx'))
              | _ => Wrong
              end
          | _ => Wrong
          end
        else
          run (v, s1) <- eval r s;
          run (vs, s2) <- eval_list eval args s1;
          run a <- known (apply_meth m v vs); Val (a, s2)
    | EMention r t args =>
        run (v, s1) <- eval r s;
        run (vs, s2) <- eval_list eval args s1;
        run (a, cx') <- call (Mention t) (v :: vs) (snd s2); Val (a, (fst s2, cx'))
    | ETrait t f args =>
        run (vs, s1) <- eval_list eval args s;
        run (a, cx') <- call (Of t f) vs (snd s1); Val (a, (fst s1, cx'))
    | EVec l => run (vs, s1) <- eval_list eval l s; Val (VlVec vs, s1)
    | ETuple l => run (vs, s1) <- eval_list eval l s; Val (VlTuple vs, s1)
    | EFormat fmt args =>
        run (vs, s1) <- eval_list eval args s;
        run ss <- known (all_values as_str vs);
        run x <- known (format_str fmt ss); Val (VlStr x, s1)
    | ERef e' | EParen e' => eval e' s
    | ENot e' => run (v, s1) <- eval e' s; match v with VlBool b => Val (VlBool (negb b), s1) | _ => Wrong end
    | EBlock ss e' =>
        run s1 <- exec_list exec ss s;
        run (v, s2) <- eval e' s1; Val (v, (leave (fst s) (fst s2), snd s2))
    | EIf c e' =>
        run (v, s1) <- eval c s;
        match v with
        | VlBool true => eval e' s1
        | VlBool false => Val (VlUnit, s1)
        | _ => Wrong
        end
    | EIfLet p c e' =>
        run (v, s1) <- eval c s;
        match matches p v with
        | Some b => run (a, s2) <- eval e' (b ++ fst s1, snd s1); Val (a, (leave (fst s1) (fst s2), snd s2))
        | None => Val (VlUnit, s1)
        end
    | EMatch c p guard e1 e2 =>
        run (v, s1) <- eval c s;
        match matches p v with
        | None => eval e2 s1
        | Some b =>
            run (g, s2) <- match guard with
                           | None => Val (VlBool true, (b ++ fst s1, snd s1))
                           | Some g => eval g (b ++ fst s1, snd s1)
                           end;
            match g with
            | VlBool true => run (a, s3) <- eval e1 s2; Val (a, (leave (fst s1) (fst s3), snd s3))
            | VlBool false => eval e2 (leave (fst s1) (fst s2), snd s2)
            | _ => Wrong
            end
        end
    end
  with exec (st : stmt) (s : state) {struct st} : out state :=
    match st with
    | SLet x e => run (v, s1) <- eval e s; Val ((x, v) :: fst s1, snd s1)
    | SLetUnder e | SExpr e => run (_, s1) <- eval e s; Val s1
    | SEmpty => Val s
    end.
End Run.

(** ** Programs *)
(** a function: its parameters ([None]: [_]) and its body *)
Record fn_code := { fn_params : list (option var); fn_body : expr }.
(** an impl of [OpgModel]; [None]: the trait's own [select_reference] *)
Record impl_code := { ic_get_schema : fn_code; ic_type_name : fn_code; ic_select : option fn_code }.

Fixpoint bind_params (ps : list (option var)) (vs : list value) : option frame :=
  match ps, vs with
  | [], [] => Some []
  | Some x :: ps', v :: vs' => option_map (cons (x, v)) (bind_params ps' vs')
  | None :: ps', _ :: vs' => bind_params ps' vs'
  | _, _ => None
  end.

(** models.rs:596-598: [Self::get_schema(cx).apply_params(params)] *)
Definition with_params_fn (self : ty) : fn_code :=
  {| fn_params := [Some V_cx; Some V_params];
     fn_body := EMeth (ETrait self T_get_schema [EVar V_cx]) M_apply_params [EVar V_params] |}.
(** models.rs:602-611 *)
Definition select_fn (self : ty) : fn_code :=
  {| fn_params := [Some V_cx; Some V_inline; Some V_params];
     fn_body :=
       EMatch (ETrait self T_type_name [])
         (P_ctor C_Some V_link) (Some (ENot (EVar V_inline)))
         (ECtor C_Link [EMeth (EVar V_link) M_into_owned []])
         (ECtor C_Inline [EMeth (ETrait self T_get_schema [EVar V_cx]) M_apply_params [EVar V_params]]) |}.
(** models.rs:536-548 *)
Definition mention_fn (M : ty) : fn_code :=
  {| fn_params := [Some V_self; Some V_inline; Some V_params];
     fn_body :=
       EBlock [
         SLet V_reference (ETrait M T_select_reference [EVar V_self; EVar V_inline; EVar V_params]);
         SExpr (EIfLet (P_ctor C_Link V_link) (ERef (EVar V_reference))
           (EIf (ENot (EMeth (ESchemas V_self) M_contains_key [EVar V_link]))
             (EBlock [
                SLet V_structure (ETrait M T_get_schema [EVar V_self]);
                SExpr (EMeth (ESchemas V_self) M_insert [EMeth (EVar V_link) M_to_owned []; EVar V_structure])]
              EUnit)))]
       (EVar V_reference) |}.

Section Program.
  Variable eval_expr : str -> str.
  Variable impl_of : ty -> impl_code.

  Definition code_of (c : callee) : fn_code :=
    match c with
    | Of t T_get_schema => ic_get_schema (impl_of t)
    | Of t T_type_name => ic_type_name (impl_of t)
    | Of t T_get_schema_with_params => with_params_fn t
    | Of t T_select_reference => match ic_select (impl_of t) with Some f => f | None => select_fn t end
    | Mention t => mention_fn t
    end.

  (** a call, observed up to [fuel] nested calls *)
  Fixpoint run_call (fuel : nat) (c : callee) (args : list value) (cx : components) : out (value * components) :=
    match fuel with
    | O => NoReturn
    | S n =>
        run fr <- known (bind_params (fn_params (code_of c)) args);
        run (v, s) <- eval eval_expr (run_call n) (fn_body (code_of c)) (fr, cx);
        Val (v, snd s)
    end.
End Program.
