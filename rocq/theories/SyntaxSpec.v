(** The grammar of [describe_api!] and [describe_type!]: which token trees are an invocation, and what they stand for.

    Nothing here refers to the rules of the macros. *)
From Verif Require Export Syntax.
Local Open Scope string_scope. Local Open Scope list_scope.

Definition COLON_TK : tree := tk_pu ":".
Definition ARROW : tree := tk_pu "=>".

(** Items with commas in between, and possibly one after the last. *)
Inductive comma_list {X} (item : list tree -> X -> Prop) : list tree -> list X -> Prop :=
| cl_none : comma_list item [] []
| cl_last ts x : item ts x -> comma_list item ts [x]
| cl_more ts x rest xs : item ts x -> comma_list item rest xs -> comma_list item (ts ++ COMMA :: rest) (x :: xs).
(** ... or a comma alone. *)
Definition loose_list {X} (item : list tree -> X -> Prop) (ts : list tree) (xs : list X) : Prop :=
  comma_list item ts xs \/ ts = [COMMA] /\ xs = [].
(** One or more items with [sep] in between, and nothing after the last. *)
Inductive sep_list {X} (sep : tree) (item : list tree -> X -> Prop) : list tree -> list X -> Prop :=
| sl_last ts x : item ts x -> sep_list sep item ts [x]
| sl_more ts x rest xs : item ts x -> sep_list sep item rest xs -> sep_list sep item (ts ++ sep :: rest) (x :: xs).
(** ... or none at all. *)
Definition strict_list {X} (item : list tree -> X -> Prop) (ts : list tree) (xs : list X) : Prop :=
  sep_list COMMA item ts xs \/ ts = [] /\ xs = [].
(** Items one after the other. *)
Inductive many {X} (item : list tree -> X -> Prop) : list tree -> list X -> Prop :=
| mn_none : many item [] []
| mn_more ts x rest xs : item ts x -> many item rest xs -> many item (ts ++ rest) (x :: xs).

(** an identifier; one that is no keyword for a boolean *)
Definition a_name (n : str) : Prop := n <> u "_".
Definition a_variable (n : str) : Prop := a_name n /\ n <> u "true" /\ n <> u "false".

Section Grammar.
  Variable C : caller.
  Definition an_expr (ts : list tree) : Prop := expr_at C ts = Some (length ts).
  Definition a_path (ts : list tree) : Prop := path_at C ts = Some (length ts).
  (** an expression with a text, a value; a type with a schema *)
  Definition text (ts : list tree) (s : str) : Prop := an_expr ts /\ text_of C ts = Some s.
  Definition ref_text (ts : list tree) (s : str) : Prop := an_expr ts /\ text_of_ref C ts = Some s.
  Definition truth (ts : list tree) (b : bool) : Prop := an_expr ts /\ bool_of C ts = Some b.
  Definition type (ts : list tree) (t : ty) : Prop := a_path ts /\ type_of C ts = Some t.
  Definition string_literal (ts : list tree) (s : str) : Prop := ts = [TkLit (TlStr s)].
  Definition bool_literal (ts : list tree) (b : bool) : Prop := ts = [tk_id (if b then "true" else "false")].
  (** [key: value] *)
  Definition entry {X} (key : string) (value : list tree -> X -> Prop) (ts : list tree) (x : X) : Prop :=
    exists v, ts = tk_id key :: COLON_TK :: v /\ value v x.
  (** in braces *)
  Definition braced {X} (inside : list tree -> X -> Prop) (ts : list tree) (x : X) : Prop :=
    exists l, ts = [TkGr Brace l] /\ inside l x.

  (** *** Segments of urls *)
  Inductive segment_form : list tree -> segment -> Prop :=
  | sf_literal s : segment_form [TkLit (TlStr s)] (SegLit s)
  | sf_type p t : type p t -> p <> [tk_id "true"] -> p <> [tk_id "false"] ->
      segment_form p (SegType (shown C p) t)
  | sf_named n p t : a_name n -> type p t -> segment_form [TkGr Brace (TkId n :: COLON_TK :: p)] (SegNamed n t).

  (** *** info, tags, servers *)
  Definition info_entry (ts : list tree) (i : info_prop) : Prop :=
    match i with
    | IpTitle s => entry "title" text ts s
    | IpVersion s => entry "version" text ts s
    | IpDescription s => entry "description" text ts s
    end.
  Inductive tag_entry : list tree -> str * option str -> Prop :=
  | te_plain n : a_name n -> tag_entry [TkId n] (n, None)
  | te_described n e s : a_name n -> text e s -> tag_entry [TkId n; TkGr Paren e] (n, Some s).
  (** a string literal, or a variable *)
  Inductive server_word : tree -> str -> Prop :=
  | sw_literal s : server_word (TkLit (TlStr s)) s
  | sw_variable n s : a_variable n -> text_var C n = Some s -> server_word (TkId n) s.
  Inductive server_entry : list tree -> str * option str -> Prop :=
  | se_plain t s : server_word t s -> server_entry [t] (s, None)
  | se_described t s t' d : server_word t s -> server_word t' d -> server_entry [t; TkGr Paren [t']] (s, Some d).

  (** *** security schemes *)
  Definition kind_word (k : http_kind) : string := match k with KBasic => "Basic" | KBearer => "Bearer" end.
  Definition location_word (i : parameter_in) : string :=
    match i with InQuery => "Query" | InHeader => "Header" | InPath => "Path" | InCookie => "Cookie" end.
  Definition http_entry (ts : list tree) (p : http_prop) : Prop :=
    match p with
    | HpScheme k => entry "scheme" (fun v k => v = [tk_id (kind_word k)]) ts k
    | HpFormat s => entry "bearer_format" text ts s
    | HpDescription s => entry "description" text ts s
    end.
  Definition key_entry (ts : list tree) (p : key_prop) : Prop :=
    match p with
    | KpIn i => entry "parameter_in" (fun v i => v = [tk_id (location_word i)]) ts i
    | KpName s => entry "name" text ts s
    | KpDescription s => entry "description" text ts s
    end.
  Inductive scheme_entry : list tree -> scheme_decl -> Prop :=
  | sd_http n p props : p <> [] -> comma_list http_entry p props ->
      scheme_entry [TkGr Paren [tk_id "http"; TkLit (TlStr n)]; COLON_TK; TkGr Brace p] (SdHttp n props)
  | sd_key e n p props : text e n -> p <> [] -> comma_list key_entry p props ->
      scheme_entry [TkGr Paren (tk_id "apiKey" :: e); COLON_TK; TkGr Brace p] (SdApiKey n props).

  (** *** parameters *)
  Definition param_prop_entry (ts : list tree) (p : param_prop) : Prop :=
    match p with
    | PpDescription s => entry "description" text ts s
    | PpRequired b => entry "required" truth ts b
    | PpDeprecated b => entry "deprecated" truth ts b
    | PpSchema t => entry "schema" type ts t
    end.
  (** [: { .. }] or nothing *)
  Definition param_props (ts : list tree) (l : list param_prop) : Prop :=
    ts = [] /\ l = [] \/ exists p, ts = [COLON_TK; TkGr Brace p] /\ comma_list param_prop_entry p l.
  Inductive param_entry : list tree -> param_decl -> Prop :=
  | pm_header e n ps l : text e n -> param_props ps l -> param_entry (TkGr Paren (tk_id "header" :: e) :: ps) (PdHeader n l)
  | pm_query n p t ps l : a_name n -> type p t -> param_props ps l ->
      param_entry (TkGr Paren (tk_id "query" :: TkId n :: COLON_TK :: p) :: ps) (PdQuery n t l).

  (** *** request bodies, responses, security *)
  Definition body_entry (ts : list tree) (p : body_prop) : Prop :=
    match p with
    | BpSchema t => entry "schema" type ts t
    | BpDescription s => entry "description" string_literal ts s
    | BpRequired b => entry "required" bool_literal ts b
    end.
  Definition body_form (ts : list tree) (b : body_decl) : Prop :=
    match b with BodyProps l => braced (comma_list body_entry) ts l | BodyType t => type ts t end.
  Inductive response_form : list tree -> response_schema -> Prop :=
  | rf_none : response_form [tk_id "None"] RsNone
  | rf_unit : response_form [TkGr Paren []] RsUnit
  | rf_type p t : type p t -> p <> [tk_id "None"] -> response_form p (RsType t)
  | rf_raw s r : s <> [] -> schema_of C s = Some r -> response_form [TkGr Brace s] (RsRaw r).
  Definition response_description (ts : list tree) (d : option str) : Prop :=
    match d with None => ts = [] | Some s => ts = [TkGr Paren [TkLit (TlStr s)]] end.
  Definition role_list (ts : list tree) (l : list str) : Prop :=
    ts = [] /\ l = [] \/ exists r, ts = [TkGr Bracket r] /\ strict_list string_literal r l.
  Inductive security_entry : list tree -> security_item -> Prop :=
  | sy_literal n r rs : role_list r rs -> security_entry (TkLit (TlStr n) :: r) (SiLit n rs)
  | sy_variable n s r rs : a_variable n -> scheme_var C n = Some s -> role_list r rs -> security_entry (TkId n :: r) (SiIdent n s rs).

  (** *** paths *)
  Definition method_word (m : http_method) : string :=
    match m with
    | GET => "GET" | PUT => "PUT" | POST => "POST" | DELETE => "DELETE"
    | OPTIONS => "OPTIONS" | HEAD => "HEAD" | PATCH => "PATCH" | TRACE => "TRACE"
    end.
  (** the tokens of a url *)
  Definition url_tokens (ts : list tree) (url : list utok) : Prop :=
    Forall2 (fun t x => t = tk_pu "/" /\ x = USlash \/ t <> tk_pu "/" /\ x = UTok t) ts url.
  Inductive path_entry : list tree -> path_decl -> Prop :=
  | pa url us p props : url <> [] -> url_tokens url us -> comma_list path_prop_entry p props ->
      path_entry [TkGr Paren url; COLON_TK; TkGr Brace p] (Build_path_decl_of us props)
  with path_prop_entry : list tree -> path_prop callback_decl -> Prop :=
  | pp_summary ts s : entry "summary" string_literal ts s -> path_prop_entry ts (PvSummary s)
  | pp_description ts s : entry "description" string_literal ts s -> path_prop_entry ts (PvDescription s)
  | pp_parameters ts l : entry "parameters" (braced (comma_list param_entry)) ts l -> path_prop_entry ts (PvParameters l)
  | pp_method m p l : comma_list op_entry p l -> path_prop_entry [tk_id (method_word m); COLON_TK; TkGr Brace p] (PvMethod m l)
  with op_entry : list tree -> op_prop callback_decl -> Prop :=
  | oe_summary ts s : entry "summary" ref_text ts s -> op_entry ts (OpSummary s)
  | oe_id ts s : entry "operationId" ref_text ts s -> op_entry ts (OpId s)
  | oe_description ts s : entry "description" ref_text ts s -> op_entry ts (OpDescription s)
  | oe_deprecated ts b : entry "deprecated" truth ts b -> op_entry ts (OpDeprecated b)
  | oe_tags ts l : entry "tags" (braced (loose_list (fun t n => t = [TkId n] /\ a_name n))) ts l -> op_entry ts (OpTags l)
  | oe_parameters ts l : entry "parameters" (braced (comma_list param_entry)) ts l -> op_entry ts (OpParameters l)
  | oe_callbacks p l : comma_list callback_entry p l ->
      op_entry [tk_id "callbacks"; COLON_TK; TkGr Brace p] (OpCallbacks l false)
  (* a callback named by a literal is last, with no comma after it, and what is in its braces is not looked at *)
  | oe_literal_callback p l n ignored : p = [] /\ l = [] \/ (exists q, p = q ++ [COMMA] /\ sep_list COMMA callback_entry q l) ->
      op_entry [tk_id "callbacks"; COLON_TK; TkGr Brace (p ++ [TkLit (TlStr n); COLON_TK; TkGr Brace ignored])]
        (OpCallbacks (l ++ [CbLit n []]) false)
  | oe_security ts l : entry "security" (braced (comma_list (sep_list (tk_pu "&&") security_entry))) ts l -> op_entry ts (OpSecurity l)
  | oe_body ts b : entry "body" body_form ts b -> op_entry ts (OpBody b)
  | oe_response c d ds f fs : (c < 65536)%N -> response_description ds d -> response_form fs f ->
      op_entry (TkLit (TlInt c) :: ds ++ COLON_TK :: fs) (OpResponse c d f)
  with callback_entry : list tree -> callback_decl -> Prop :=
  | ce n p ps : a_name n -> n <> u "true" -> n <> u "false" -> strict_list path_entry p ps ->
      callback_entry [TkId n; COLON_TK; TkGr Brace p] (CbIdent n ps).

  (** *** [describe_api!] *)
  Definition section_entry (ts : list tree) (s : api_section) : Prop :=
    match s with
    | ScInfo l => entry "info" (braced (loose_list info_entry)) ts l
    | ScTags l => entry "tags" (braced (loose_list tag_entry)) ts l
    | ScServers l => entry "servers" (braced (comma_list server_entry)) ts l
    | ScSecurity l => entry "security_schemes" (braced (comma_list scheme_entry)) ts l
    | ScPaths l => entry "paths" (braced (loose_list path_entry)) ts l
    end.
  Definition invocation (ts : list tree) (a : api) : Prop := comma_list section_entry ts a /\ a <> [].

  (** *** [describe_type!] *)
  (** a literal and its text *)
  Inductive literal : list tree -> str -> Prop :=
  | lt_string s : literal [TkLit (TlStr s)] s
  | lt_true : literal [tk_id "true"] (u "true")
  | lt_false : literal [tk_id "false"] (u "false")
  | lt_other l s : (forall s', l <> TlStr s') -> other_text C l = Some s -> literal [TkLit l] s
  | lt_negative l s : negated C l = Some s -> literal [tk_pu "-"; TkLit l] s.
  Definition optional {X} (key : string) (value : list tree -> X -> Prop) (ts : list tree) (o : option X) : Prop :=
    match o with None => ts = [] | Some x => entry key value ts x end.
  Definition variants_form (ts : list tree) (l : list str) : Prop := exists v, ts = [TkGr Bracket v] /\ strict_list literal v l.
  Definition form (key : string) (inside : list tree) : list tree := [tk_id key; ARROW; TkGr Brace inside].
  Inductive type_form : list tree -> describe -> Prop :=
  | tf_raw_model v m : a_name v -> model_var C v = Some m -> type_form [tk_id "raw_model"; ARROW; TkId v] (DtRawModel m)
  | tf_raw_type ds d v t : optional "description" literal ds d -> a_name v -> data_var C v = Some t ->
      type_form (form "raw_type" (ds ++ [tk_id "ident"; COLON_TK; TkId v])) (DtRawType d t)
  | tf_string ds d fs f es e vs v : optional "description" literal ds d -> optional "format" literal fs f ->
      optional "example" literal es e -> optional "variants" variants_form vs v ->
      type_form (form "string" (ds ++ fs ++ es ++ vs)) (DtString d f e v)
  | tf_number ds d fs f es e : optional "description" literal ds d -> optional "format" literal fs f ->
      optional "example" literal es e -> type_form (form "number" (ds ++ fs ++ es)) (DtNumber d f e)
  | tf_integer ds d fs f es e : optional "description" literal ds d -> optional "format" literal fs f ->
      optional "example" literal es e -> type_form (form "integer" (ds ++ fs ++ es)) (DtInteger d f e)
  | tf_boolean ds d : optional "description" literal ds d -> type_form (form "boolean" ds) (DtBoolean d)
  | tf_array ds d vs v : optional "description" literal ds d -> value_form vs v ->
      type_form (form "array" (ds ++ [tk_id "items"; COLON_TK; TkGr Paren vs])) (DtArray d v)
  | tf_object ds d ps l : optional "description" literal ds d -> many property_form ps l ->
      type_form (form "object" (ds ++ [tk_id "properties"; COLON_TK; TkGr Brace ps])) (DtObject d l)
  with value_form : list tree -> describe_value -> Prop :=
  | vf_link s : value_form [tk_id "link"; ARROW; TkLit (TlStr s)] (DvLink s)
  | vf_variable v s : a_variable v -> text_var C v = Some s -> value_form [tk_id "link"; ARROW; TkId v] (DvLink s)
  | vf_inline ts d : type_form ts d -> value_form ts (DvInline d)
  with property_form : list tree -> str * bool * describe_value -> Prop :=
  | pf_optional n vs v : a_name n -> value_form vs v -> property_form [TkId n; COLON_TK; TkGr Paren vs] (n, false, v)
  | pf_required n vs v : a_name n -> value_form vs v ->
      property_form [TkId n; TkGr Bracket [tk_id "required"]; COLON_TK; TkGr Paren vs] (n, true, v).
End Grammar.

(** What is assumed about Rust's own parsers for expressions and paths: they take at least one token and no more than
    there are, expressions and paths begin with a token that may begin one, a comma does not belong to what stands before
    it, and [None] is a path. *)
Record rust_like (C : caller) : Prop := {
  expr_size : forall ts n, expr_at C ts = Some n -> 1 <= n <= length ts;
  path_size : forall ts n, path_at C ts = Some n -> 1 <= n <= length ts;
  expr_begins : forall t ts n, expr_at C (t :: ts) = Some n -> begins C t = true;
  path_begins : forall t ts n, path_at C (t :: ts) = Some n -> (exists s, t = TkId s) \/ t = tk_pu "::";
  expr_comma : forall ts rest, expr_at C (ts ++ COMMA :: rest) = Some (length ts) <-> expr_at C ts = Some (length ts);
  path_comma : forall ts rest, path_at C (ts ++ COMMA :: rest) = Some (length ts) <-> path_at C ts = Some (length ts);
  none_path : path_at C [tk_id "None"] = Some 1
}.
