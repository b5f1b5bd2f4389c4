(** Model of [describe_type!] and [describe_api!] (opg/src/macros.rs).

    An invocation is represented by the syntax it is matched as; how token trees are matched against the patterns
    of the macros is modelled in Syntax.v.  Macro
    arguments that are expressions are represented by their values. *)
From Verif Require Export Tokens Doc.

(** ** [describe_type!] *)

(** macros.rs:20-163.  [DtRawModel]: 21-23; [DtRawType]: 25-33; string 35-54, number 56-71, integer 73-88, boolean 90-100,
    array 102-115, object 117-140 (each property with its name, whether it is marked [required], and its value). *)
Inductive describe :=
| DtRawModel (m : model)
| DtRawType (description : option str) (data : model_data)
| DtString (description format example : option str) (variants : option (list str))
| DtNumber (description format example : option str)
| DtInteger (description format example : option str)
| DtBoolean (description : option str)
| DtArray (description : option str) (items : describe_value)
| DtObject (description : option str) (properties : list (str * bool * describe_value))
(** 152-162 *)
with describe_value := DvLink (l : str) | DvInline (d : describe).

(** 127, 142-150: [properties.insert(..); required.push(..)] *)
Fixpoint add_properties (l : list (str * bool * model_ref)) (p : bmap str model_ref) (r : list str) : bmap str model_ref * list str :=
  match l with
  | [] => (p, r)
  | (k, req, v) :: l' => add_properties l' (bm_insert k v p) (if req then r ++ [k] else r)
  end.

Fixpoint describe_type (d : describe) : model :=
  match d with
  | DtRawModel m => m
  | DtRawType desc data => Model desc data
  | DtString desc f e v => mk_single desc false (TdString {| mst_variants := v; mst_data := mk_simple f e |})
  | DtNumber desc f e => mk_single desc false (TdNumber (mk_simple f e))
  | DtInteger desc f e => mk_single desc false (TdInteger (mk_simple f e))
  | DtBoolean desc => mk_single desc false TdBoolean
  | DtArray desc items => mk_single desc false (TdArray (describe_value_ref items))
  | DtObject desc l =>
      let (p, r) := add_properties (map (fun e => (fst (fst e), snd (fst e), describe_value_ref (snd e))) l) [] [] in
      mk_single desc false (TdObject (MObject p None r))
  end
with describe_value_ref (v : describe_value) : model_ref :=
  match v with DvLink l => Link l | DvInline d => Inline (describe_type d) end.

(** ** [describe_api!]: syntax *)

(** the token trees of a url template: a slash, or any other *)
Inductive utok := USlash | UTok (t : tree).
(** what [@opg_path_url] matches: a literal, a type (with the text [stringify!] gives), or [{name: Type}] *)
Inductive segment := SegLit (s : str) | SegType (text : str) (t : ty) | SegNamed (name : str) (t : ty).

(** macros.rs:696-712 *)
Inductive param_prop := PpDescription (s : str) | PpRequired (b : bool) | PpDeprecated (b : bool) | PpSchema (t : ty).
(** macros.rs:639-693; without braces the list of properties is empty (the code is the same) *)
Inductive param_decl := PdHeader (name : str) (props : list param_prop) | PdQuery (name : str) (t : ty) (props : list param_prop).
(** macros.rs:595-607, 525-544 *)
Inductive body_prop := BpSchema (t : ty) | BpDescription (s : str) | BpRequired (b : bool).
Inductive body_decl := BodyProps (l : list body_prop) | BodyType (t : ty).
(** macros.rs:545-572; [RsRaw]: an expression in braces, which has no access to the document *)
Inductive response_schema := RsNone | RsUnit | RsType (t : ty) | RsRaw (r : option model_ref).
(** macros.rs:587-592: a scheme named by a literal, or by a variable holding it; with the roles *)
Inductive security_item := SiLit (name : str) (roles : list str) | SiIdent (name : str) (s : security_scheme) (roles : list str).

(** macros.rs:493-573 *)
Inductive op_prop (C : Type) :=
| OpSummary (s : str) | OpId (s : str) | OpDescription (s : str) | OpDeprecated (b : bool) | OpTags (l : list str)
| OpParameters (l : list param_decl)
| OpCallbacks (l : list C) (trailing_comma : bool)
| OpSecurity (l : list (list security_item))
| OpBody (b : body_decl)
| OpResponse (code : N) (description : option str) (s : response_schema).
Arguments OpSummary {C}. Arguments OpId {C}. Arguments OpDescription {C}. Arguments OpDeprecated {C}. Arguments OpTags {C}.
Arguments OpParameters {C}. Arguments OpCallbacks {C}. Arguments OpSecurity {C}. Arguments OpBody {C}. Arguments OpResponse {C}.
(** macros.rs:475-490 *)
Inductive path_prop (C : Type) :=
| PvSummary (s : str) | PvDescription (s : str) | PvParameters (l : list param_decl) | PvMethod (m : http_method) (l : list (op_prop C)).
Arguments PvSummary {C}. Arguments PvDescription {C}. Arguments PvParameters {C}. Arguments PvMethod {C}.
(** macros.rs:449-451: a url template with the properties of the path *)
Record path_decl_of (C : Type) := { pd_url : list utok; pd_props : list (path_prop C) }.
Arguments Build_path_decl_of {C}. Arguments pd_url {C}. Arguments pd_props {C}.
(** macros.rs:609-623: a callback named by a literal or by an identifier *)
Inductive callback_decl :=
| CbLit (name : str) (paths : list (path_decl_of callback_decl))
| CbIdent (name : str) (paths : list (path_decl_of callback_decl)).
Definition path_decl := path_decl_of callback_decl.
Definition cd_name (c : callback_decl) : str := match c with CbLit n _ | CbIdent n _ => n end.

(** macros.rs:340-349 *)
Inductive info_prop := IpTitle (s : str) | IpVersion (s : str) | IpDescription (s : str).
(** macros.rs:419-431, 434-446 *)
Inductive http_kind := KBasic | KBearer.
Inductive http_prop := HpScheme (k : http_kind) | HpFormat (s : str) | HpDescription (s : str).
Inductive key_prop := KpIn (i : parameter_in) | KpName (s : str) | KpDescription (s : str).
(** macros.rs:369-416.  The form with an identifier (372-375) calls a macro [stringity!] that does not exist: it never
    compiles and is left out. *)
Inductive scheme_decl := SdHttp (name : str) (props : list http_prop) | SdApiKey (name : str) (props : list key_prop).
(** macros.rs:333-337 with 340-366, 449 *)
Inductive api_section :=
| ScInfo (l : list info_prop)
| ScTags (l : list (str * option str))
| ScServers (l : list (str * option str))
| ScSecurity (l : list scheme_decl)
| ScPaths (l : list path_decl).
Definition api := list api_section.

(** ** Execution *)

(** An invocation gives a value, does not return (recursive types), panics, or is rejected by the compiler. *)
Inductive outcome (A : Type) := Done (a : A) | NoReturn | Panicked | Rejected.
Arguments Done {A}. Arguments NoReturn {A}. Arguments Panicked {A}. Arguments Rejected {A}.
Definition obind {A B} (x : outcome A) (f : A -> outcome B) : outcome B :=
  match x with Done a => f a | NoReturn => NoReturn | Panicked => Panicked | Rejected => Rejected end.
Notation "'get' p <- x ; f" := (obind x (fun p => f)) (at level 200, p pattern, x at level 100, f at level 200).
Definition lift {A} (x : res A) : outcome A := match x with Ok a => Done a | Fuel => NoReturn end.

(** a sequence of statements over a state and the components *)
Definition exec_list {X S} (f : X -> S -> components -> outcome (S * components)) :=
  fix go (l : list X) (s : S) (cx : components) : outcome (S * components) :=
    match l with
    | [] => Done (s, cx)
    | x :: l' => get (s1, cx1) <- f x s cx; go l' s1 cx1
    end.

(** macros.rs:463-472 [@opg_property_url]: the groups of tokens, or no rule matches *)
Fixpoint munch (rest current : list utok) : option (list (list utok)) :=
  match rest, current with
  | USlash :: rest', _ :: _ => match munch rest' [] with Some l => Some (current :: l) | None => None end
  | [], _ :: _ => Some [current]
  | next :: rest', _ => munch rest' (current ++ [next])
  | [], [] => None
  end.
(** a group without slashes; none of the forms of [@opg_path_url] contains a slash *)
Fixpoint group_text (g : list utok) : option (list tree) :=
  match g with
  | [] => Some []
  | USlash :: _ => None
  | UTok s :: g' => match group_text g' with Some l => Some (s :: l) | None => None end
  end.

(** macros.rs:720-724: the parameter name for a type given by its text; [None]: [name\[..1\]] panics *)
Fixpoint after_last_colon (s : str) : option str :=
  match s with
  | [] => None
  | c :: s' => match after_last_colon s' with
               | Some r => Some r
               | None => if N.eqb c 58 then Some s' else None
               end
  end.
Definition lower_first (s : str) : option str :=
  match s with
  | [] => None
  | c :: s' => if (c <? 128)%N then Some ((if (65 <=? c)%N && (c <=? 90)%N then (c + 32)%N else c) :: s') else None
  end.
Definition type_param_name (text : str) : option str :=
  lower_first (match after_last_colon text with Some r => r | None => text end).

Section Exec.
  Variable E : env.
  Variable fuel : nat.
  (** http::StatusCode: the canonical reason of a status code that is valid and has one *)
  Variable reason : N -> option str.
  (** how a group of tokens is matched and resolved by [@opg_path_url]; [None]: not at all *)
  Variable seg : list tree -> option segment.

  (** [$result.components.mention_schema::<t>(false, &Default::default())] *)
  Definition api_mention (t : ty) (cx : components) : outcome (model_ref * components) := lift (mention E fuel t false params_default cx).

  (** macros.rs:738-747 *)
  Definition path_parameter (r : model_ref) : op_parameter :=
    {| pr_description := None; pr_in := InPath; pr_required := true; pr_deprecated := false; pr_schema := Some r |}.

  (** macros.rs:715-736 [@opg_path_url] *)
  Definition exec_segment (s : segment) (st : path * bmap str op_parameter) (cx : components)
    : outcome (path * bmap str op_parameter * components) :=
    let (p, params) := st in
    match s with
    | SegLit l => Done (p ++ [PePath l], params, cx)
    | SegType text t =>
        match type_param_name text with
        | None => Panicked
        | Some name =>
            get (r, cx') <- api_mention t cx;
            Done (p ++ [PeParameter name], bm_insert name (path_parameter r) params, cx')
        end
    | SegNamed name t =>
        get (r, cx') <- api_mention t cx;
        Done (p ++ [PeParameter name], bm_insert name (path_parameter r) params, cx')
    end.
  Definition exec_group (g : list utok) (st : path * bmap str op_parameter) (cx : components)
    : outcome (path * bmap str op_parameter * components) :=
    match group_text g with
    | None => Rejected
    | Some l => match seg l with None => Rejected | Some s => exec_segment s st cx end
    end.
  Definition exec_url (url : list utok) (cx : components) : outcome (path * bmap str op_parameter * components) :=
    match munch url [] with
    | None => Rejected
    | Some groups => exec_list exec_group groups ([], []) cx
    end.

  (** macros.rs:696-712 *)
  Definition exec_param_prop (p : param_prop) (a : op_parameter) (cx : components) : outcome (op_parameter * components) :=
    match p with
    | PpDescription s =>
        Done ({| pr_description := Some s; pr_in := pr_in a; pr_required := pr_required a; pr_deprecated := pr_deprecated a;
                 pr_schema := pr_schema a |}, cx)
    | PpRequired b =>
        Done ({| pr_description := pr_description a; pr_in := pr_in a; pr_required := b; pr_deprecated := pr_deprecated a;
                 pr_schema := pr_schema a |}, cx)
    | PpDeprecated b =>
        Done ({| pr_description := pr_description a; pr_in := pr_in a; pr_required := pr_required a; pr_deprecated := b;
                 pr_schema := pr_schema a |}, cx)
    | PpSchema t =>
        get (r, cx') <- api_mention t cx;
        Done ({| pr_description := pr_description a; pr_in := pr_in a; pr_required := pr_required a;
                 pr_deprecated := pr_deprecated a; pr_schema := Some r |}, cx')
    end.
  (** macros.rs:639-693 *)
  Definition exec_param (d : param_decl) (m : bmap str op_parameter) (cx : components)
    : outcome (bmap str op_parameter * components) :=
    match d with
    | PdHeader name props =>
        get (r, cx1) <- api_mention (TPrim PString) cx;
        get (a, cx2) <- exec_list exec_param_prop props
          {| pr_description := None; pr_in := InHeader; pr_required := true; pr_deprecated := false; pr_schema := Some r |} cx1;
        Done (bm_insert name a m, cx2)
    | PdQuery name t props =>
        get (r, cx1) <- api_mention t cx;
        get (a, cx2) <- exec_list exec_param_prop props
          {| pr_description := None; pr_in := InQuery; pr_required := false; pr_deprecated := false; pr_schema := Some r |} cx1;
        Done (bm_insert name a m, cx2)
    end.

  (** macros.rs:595-607; the state is description, required and schema (absent: [ParameterNotSpecified]) *)
  Definition exec_body_prop (p : body_prop) (st : option str * bool * option model_ref) (cx : components)
    : outcome (option str * bool * option model_ref * components) :=
    let '(d, r, s) := st in
    match p with
    | BpSchema t => get (x, cx') <- api_mention t cx; Done (d, r, Some x, cx')
    | BpDescription s' => Done (Some s', r, s, cx)
    | BpRequired b => Done (d, b, s, cx)
    end.
  (** macros.rs:525-544 *)
  Definition exec_body (b : body_decl) (cx : components) : outcome (request_body * components) :=
    match b with
    | BodyProps l =>
        get (st, cx') <- exec_list exec_body_prop l (None, true, None) cx;
        let '(d, r, s) := st in
        match s with
        | None => Rejected
        | Some x =>
            Done ({| rb_description := match d with Some _ => d | None => Some [] end; rb_required := r; rb_schema := x |}, cx')
        end
    | BodyType t =>
        get (x, cx') <- api_mention t cx;
        Done ({| rb_description := Some []; rb_required := true; rb_schema := x |}, cx')
    end.

  (** macros.rs:545-572 *)
  Definition exec_response_schema (s : response_schema) (cx : components) : outcome (option model_ref * components) :=
    match s with
    | RsNone => Done (None, cx)
    | RsUnit => get (r, cx') <- api_mention (TPrim PUnit) cx; Done (Some r, cx')
    | RsType t => get (r, cx') <- api_mention t cx; Done (Some r, cx')
    | RsRaw r => Done (r, cx)
    end.
  Definition response_description (code : N) (d : option str) : str :=
    match d with Some s => s | None => match reason code with Some s => s | None => [] end end.

  (** macros.rs:587-592.  Roles would make the value a [Vec<&str>] where a [Vec<String>] is expected: they do not compile. *)
  Definition exec_security_item (i : security_item) (m : bmap str (list str)) (cx : components)
    : outcome (bmap str (list str) * components) :=
    match i with
    | SiLit name [] => Done (bm_insert name [] m, cx)
    | SiIdent name s [] => let (n, cx') := mention_security_scheme name s cx in Done (bm_insert n [] m, cx')
    | _ => Rejected
    end.
  (** macros.rs:576-584 *)
  Definition exec_requirement (l : list security_item) (o : operation) (cx : components) : outcome (operation * components) :=
    match l with
    | [] => Rejected
    | _ => get (m, cx') <- exec_list exec_security_item l [] cx; Done (push_security m o, cx')
    end.

  Section Nested.
    Variable exec_cb : callback_decl -> components -> outcome (callback * components).
    (** macros.rs:609-623: the rules for the list; a callback named by a literal is given the rest of the tokens as its
        paths (611), so it compiles only if nothing follows, not even a comma *)
    Definition exec_callbacks (trailing : bool) :=
      fix go (l : list callback_decl) (o : operation) (cx : components) : outcome (operation * components) :=
        match l with
        | [] => Done (o, cx)
        | c :: l' =>
            match c, l', trailing with
            | CbLit _ _, [], false | CbIdent _ _, _, _ =>
                get (cb, cx') <- exec_cb c cx; go l' (insert_callback (cd_name c) cb o) cx'
            | _, _, _ => Rejected
            end
        end.
    (** macros.rs:493-573 *)
    Definition exec_op_prop (p : op_prop callback_decl) (o : operation) (cx : components) : outcome (operation * components) :=
      match p with
      | OpSummary s => Done (with_summary s o, cx)
      | OpId s => Done (with_operation_id s o, cx)
      | OpDescription s => Done (with_description s o, cx)
      | OpDeprecated b => Done (mark_deprecated b o, cx)
      | OpTags l => Done (push_tags l o, cx)
      | OpParameters l => get (m, cx') <- exec_list exec_param l (op_parameters o) cx; Done (op_set_parameters m o, cx')
      | OpCallbacks l trailing => exec_callbacks trailing l o cx
      | OpSecurity l => exec_list exec_requirement l o cx
      | OpBody b => get (x, cx') <- exec_body b cx; Done (with_request_body x o, cx')
      | OpResponse code d s =>
          get (x, cx') <- exec_response_schema s cx;
          Done (insert_response code {| rs_description := response_description code d; rs_schema := x |} o, cx')
      end.
    Definition exec_operation (l : list (op_prop callback_decl)) (cx : components) : outcome (operation * components) :=
      exec_list exec_op_prop l operation_default cx.
    (** macros.rs:475-490 *)
    Definition exec_path_prop (p : path_prop callback_decl) (v : path_value) (cx : components) : outcome (path_value * components) :=
      match p with
      | PvSummary s => Done (Build_path_value_of (Some s) (pv_description v) (pv_operations v) (pv_parameters v), cx)
      | PvDescription s => Done (Build_path_value_of (pv_summary v) (Some s) (pv_operations v) (pv_parameters v), cx)
      | PvParameters l =>
          get (m, cx') <- exec_list exec_param l (pv_parameters v) cx;
          Done (Build_path_value_of (pv_summary v) (pv_description v) (pv_operations v) m, cx')
      | PvMethod me l =>
          get (o, cx') <- exec_operation l cx;
          Done (Build_path_value_of (pv_summary v) (pv_description v) (bm_insert me o (pv_operations v)) (pv_parameters v), cx')
      end.
    (** macros.rs:452-460, 628-636 *)
    Definition exec_path (d : path_decl) (cx : components) : outcome (path * path_value * components) :=
      get (pp, cx1) <- exec_url (pd_url d) cx;
      let (p, params) := pp in
      get (v, cx2) <- exec_list exec_path_prop (pd_props d) (Build_path_value_of None None [] params) cx1;
      Done (p, v, cx2).
    Definition exec_path_push (d : path_decl) (l : list (path * path_value)) (cx : components)
      : outcome (list (path * path_value) * components) :=
      get (pv, cx') <- exec_path d cx; Done (l ++ [pv], cx').
  End Nested.

  (** macros.rs:609-622: the object of one callback; for a literal the paths given are ignored (611) *)
  Fixpoint exec_callback (c : callback_decl) (cx : components) : outcome (callback * components) :=
    match c with
    | CbLit _ _ => Done (Callback [], cx)
    | CbIdent _ paths => get (l, cx') <- exec_list (exec_path_push exec_callback) paths [] cx; Done (Callback l, cx')
    end.

  (** macros.rs:340-349: [Info { $($property,)* ..Default::default() }]; a property given twice does not compile *)
  Definition once {A} (l : list A) : option (option A) := match l with [] => Some None | [a] => Some (Some a) | _ => None end.
  Definition or_default (o : option str) : str := match o with Some s => s | None => [] end.
  Definition exec_info (l : list info_prop) : outcome info :=
    match once (flat_map (fun p => match p with IpTitle s => [s] | _ => [] end) l),
          once (flat_map (fun p => match p with IpVersion s => [s] | _ => [] end) l),
          once (flat_map (fun p => match p with IpDescription s => [s] | _ => [] end) l) with
    | Some t, Some v, Some d => Done {| in_title := or_default t; in_description := d; in_version := or_default v |}
    | _, _, _ => Rejected
    end.

  (** macros.rs:419-431: the state is scheme (absent: [ParameterNotSpecified]), format, description *)
  Definition http_step (p : http_prop) (st : option http_kind * option str * option str) : option http_kind * option str * option str :=
    let '(k, f, d) := st in
    match p with HpScheme k' => (Some k', f, d) | HpFormat s => (k, Some s, d) | HpDescription s => (k, f, Some s) end.
  (** macros.rs:434-446 *)
  Definition key_step (p : key_prop) (st : parameter_in * option str * option str) : parameter_in * option str * option str :=
    let '(i, n, d) := st in
    match p with KpIn i' => (i', n, d) | KpName s => (i, Some s, d) | KpDescription s => (i, n, Some s) end.
  (** macros.rs:376-415 *)
  Definition scheme_of (d : scheme_decl) : outcome (str * security_scheme) :=
    match d with
    | SdHttp name props =>
        match fold_left (fun st p => http_step p st) props (None, None, None) with
        | (None, _, _) => Rejected
        | (Some KBasic, _, d) => Done (name, Http (Basic d))
        | (Some KBearer, f, d) => Done (name, Http (Bearer f d))
        end
    | SdApiKey name props =>
        match fold_left (fun st p => key_step p st) props (InHeader, None, None) with
        | (_, None, _) => Rejected
        | (i, Some n, d) => Done (name, ApiKey {| ak_in := i; ak_name := n; ak_description := d |})
        end
    end.
  Definition exec_scheme (d : scheme_decl) (_ : unit) (cx : components) : outcome (unit * components) :=
    get (n, s) <- scheme_of d;
    Done (tt, {| cx_schemas := cx_schemas cx; cx_security := bm_insert n s (cx_security cx) |}).

  (** macros.rs:333-366, 369-371, 449-461: one section *)
  Definition exec_section (s : api_section) (d : opg) : outcome opg :=
    match s with
    | ScInfo l =>
        get i <- exec_info l;
        Done {| og_info := i; og_tags := og_tags d; og_servers := og_servers d; og_paths := og_paths d; og_components := og_components d |}
    | ScTags l =>
        Done {| og_info := og_info d;
                og_tags := fold_left (fun m t => bm_insert (fst t) {| tg_description := snd t |} m) l (og_tags d);
                og_servers := og_servers d; og_paths := og_paths d; og_components := og_components d |}
    | ScServers l =>
        Done {| og_info := og_info d; og_tags := og_tags d;
                og_servers := og_servers d ++ map (fun s => {| sv_url := fst s; sv_description := snd s |}) l;
                og_paths := og_paths d; og_components := og_components d |}
    | ScSecurity l =>
        get (_, cx) <- exec_list exec_scheme l tt (og_components d);
        Done {| og_info := og_info d; og_tags := og_tags d; og_servers := og_servers d; og_paths := og_paths d; og_components := cx |}
    | ScPaths l =>
        get (ps, cx) <- exec_list (exec_path_push exec_callback) l (og_paths d) (og_components d);
        Done {| og_info := og_info d; og_tags := og_tags d; og_servers := og_servers d; og_paths := ps; og_components := cx |}
    end.
  Fixpoint exec_sections (l : list api_section) (d : opg) : outcome opg :=
    match l with [] => Done d | s :: l' => get d' <- exec_section s d; exec_sections l' d' end.

  (** ** What the compiler rejects *)
  Definition url_compiles (url : list utok) : bool :=
    match munch url [] with
    | None => false
    | Some gs => forallb (fun g => match group_text g with Some l => match seg l with Some _ => true | None => false end | None => false end) gs
    end.
  Definition no_roles (i : security_item) : bool := match i with SiLit _ [] | SiIdent _ _ [] => true | _ => false end.
  Definition is_nil {A} (l : list A) : bool := match l with [] => true | _ => false end.
  Section CompilesNested.
    Variable cb_compiles : callback_decl -> bool.
    Definition op_prop_compiles (p : op_prop callback_decl) : bool :=
      match p with
      | OpCallbacks l trailing =>
          forallb cb_compiles l &&
          (fix go (l : list callback_decl) : bool :=
             match l with
             | [] => true
             | c :: l' => match c with CbLit _ _ => is_nil l' && negb trailing | CbIdent _ _ => go l' end
             end) l
      | OpSecurity l => forallb (fun r => negb (is_nil r) && forallb no_roles r) l
      | OpBody (BodyProps l) => existsb (fun p => match p with BpSchema _ => true | _ => false end) l
      | _ => true
      end.
    Definition path_prop_compiles (p : path_prop callback_decl) : bool :=
      match p with PvMethod _ l => forallb op_prop_compiles l | _ => true end.
    Definition path_compiles (d : path_decl) : bool := url_compiles (pd_url d) && forallb path_prop_compiles (pd_props d).
  End CompilesNested.
  Fixpoint callback_compiles (c : callback_decl) : bool :=
    match c with CbLit _ _ => true | CbIdent _ paths => forallb (path_compiles callback_compiles) paths end.
  Definition section_compiles (s : api_section) : bool :=
    match s with
    | ScInfo l => match exec_info l with Done _ => true | _ => false end
    | ScSecurity l => forallb (fun d => match scheme_of d with Done _ => true | _ => false end) l
    | ScPaths l => forallb (path_compiles callback_compiles) l
    | _ => true
    end.

  (** macros.rs:333-337 *)
  Definition describe_api (a : api) : outcome opg :=
    if forallb section_compiles a then exec_sections a opg_default else Rejected.
End Exec.
