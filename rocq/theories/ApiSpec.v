(** Specification vocabulary for [describe_api!] and [describe_type!]: what a declaration means. *)
From Verif Require Export Api SerSpec.

(** ** Lists of declarations *)

(** what the last element of [l] that is selected gives *)
Fixpoint last_of {X A} (sel : X -> option A) (l : list X) : option A :=
  match l with
  | [] => None
  | x :: l' => match last_of sel l' with Some a => Some a | None => sel x end
  end.
Definition last_or {X A} (sel : X -> option A) (l : list X) (dflt : A) : A := match last_of sel l with Some a => a | None => dflt end.
(** the scheme declared by an entry of [security_schemes]: the last value given counts; an http scheme needs [scheme], an api
    key needs [name], and is in the header unless stated otherwise *)
Definition scheme_declared (d : scheme_decl) : option (str * security_scheme) :=
  match d with
  | SdHttp n l =>
      let descr := last_of (fun p => match p with HpDescription s => Some s | _ => None end) l in
      let format := last_of (fun p => match p with HpFormat s => Some s | _ => None end) l in
      match last_of (fun p => match p with HpScheme k => Some k | _ => None end) l with
      | None => None
      | Some KBasic => Some (n, Http (Basic descr))
      | Some KBearer => Some (n, Http (Bearer format descr))
      end
  | SdApiKey n l =>
      match last_of (fun p => match p with KpName s => Some s | _ => None end) l with
      | None => None
      | Some k => Some (n, ApiKey {| ak_in := last_or (fun p => match p with KpIn i => Some i | _ => None end) l InHeader; ak_name := k;
                                     ak_description := last_of (fun p => match p with KpDescription s => Some s | _ => None end) l |})
      end
  end.
(** the last element of [l] with the key [k] *)
Definition last_with {X K} `{Ord K} (key : X -> K) (k : K) (l : list X) : option X :=
  last_of (fun x => match kcmp k (key x) with Eq => Some x | _ => None end) l.

(** ** Url templates *)

(** the pieces between slashes *)
Fixpoint split_url (l : list utok) : list (list tree) :=
  match l with
  | [] => [[]]
  | USlash :: l' => [] :: split_url l'
  | UTok s :: l' => match split_url l' with g :: gs => (s :: g) :: gs | [] => [[s]] end
  end.
(** pieces with slashes in between *)
Fixpoint join_url (gs : list (list tree)) : list utok :=
  match gs with
  | [] => []
  | [g] => map UTok g
  | g :: gs' => map UTok g ++ USlash :: join_url gs'
  end.

(** the parameter for a type given by its text: what follows the last colon, the first letter in lower case *)
Definition COLON : N := 58.
Definition type_parameter (text name : str) : Prop :=
  exists before c rest, text = before ++ c :: rest /\ ~ In COLON (c :: rest) /\ (before = [] \/ exists b, before = b ++ [COLON]) /\
    (c < 128)%N /\ ((65 <= c <= 90)%N /\ name = (c + 32)%N :: rest \/ ~ (65 <= c <= 90)%N /\ name = c :: rest).

(** ** What is mentioned, in order *)

(** a schema is mentioned; a type is named that has no parameter name; a security scheme is used; one is declared *)
Inductive event := EvType (t : ty) | EvPanic | EvUse (name : str) (s : security_scheme) | EvDeclare (name : str) (s : security_scheme).

Definition ev_param_props (l : list param_prop) : list event := flat_map (fun p => match p with PpSchema t => [EvType t] | _ => [] end) l.
Definition ev_param (d : param_decl) : list event :=
  match d with PdHeader _ l => EvType (TPrim PString) :: ev_param_props l | PdQuery _ t l => EvType t :: ev_param_props l end.
Definition ev_body (b : body_decl) : list event :=
  match b with BodyProps l => flat_map (fun p => match p with BpSchema t => [EvType t] | _ => [] end) l | BodyType t => [EvType t] end.
Definition ev_response (s : response_schema) : list event :=
  match s with RsUnit => [EvType (TPrim PUnit)] | RsType t => [EvType t] | _ => [] end.
Definition ev_item (i : security_item) : list event := match i with SiIdent n s _ => [EvUse n s] | SiLit _ _ => [] end.
Definition ev_segment (s : segment) : list event :=
  match s with
  | SegLit _ => []
  | SegType text t => match type_param_name text with Some _ => [EvType t] | None => [EvPanic] end
  | SegNamed _ t => [EvType t]
  end.
Section Events.
  Variable seg : list tree -> option segment.
  Definition ev_url (url : list utok) : list event :=
    flat_map (fun g => match seg g with Some s => ev_segment s | None => [] end) (split_url url).
  Section Nested.
    Variable ev_callback : callback_decl -> list event.
    Definition ev_op_prop (p : op_prop callback_decl) : list event :=
      match p with
      | OpParameters l => flat_map ev_param l
      | OpCallbacks l _ => flat_map ev_callback l
      | OpSecurity l => flat_map (flat_map ev_item) l
      | OpBody b => ev_body b
      | OpResponse _ _ s => ev_response s
      | _ => []
      end.
    Definition ev_path_prop (p : path_prop callback_decl) : list event :=
      match p with PvParameters l => flat_map ev_param l | PvMethod _ l => flat_map ev_op_prop l | _ => [] end.
    Definition ev_path (d : path_decl) : list event := ev_url (pd_url d) ++ flat_map ev_path_prop (pd_props d).
  End Nested.
  (** the paths of a callback named by a literal are ignored *)
  Fixpoint ev_callback (c : callback_decl) : list event :=
    match c with CbLit _ _ => [] | CbIdent _ l => flat_map (ev_path ev_callback) l end.
  Definition ev_section (s : api_section) : list event :=
    match s with
    | ScPaths l => flat_map (ev_path ev_callback) l
    | ScSecurity l => flat_map (fun d => match scheme_declared d with Some (n, s) => [EvDeclare n s] | None => [] end) l
    | _ => []
    end.
  Definition ev_api (a : api) : list event := flat_map ev_section a.
End Events.

(** the types mentioned by an invocation *)
Definition types_of (l : list event) : list ty := flat_map (fun e => match e with EvType t => [t] | _ => [] end) l.
(** the security schemes after these events: a declaration replaces, a use adds if absent *)
Definition schemes_after (l : list event) : bmap str security_scheme :=
  fold_left (fun m e =>
    match e with
    | EvDeclare n s => bm_insert n s m
    | EvUse n s => match bm_get n m with Some _ => m | None => bm_insert n s m end
    | _ => m
    end) l [].

(** ** What a declaration means *)
Section Means.
  Variable E : env.
  Variable reason : N -> option str.
  Variable seg : list tree -> option segment.

  (** [r] is the reference for the type [t] *)
  Definition refers (t : ty) (r : model_ref) : Prop := exists cx cx', mention_returns E t false params_default cx r cx'.

  Definition pd_name (d : param_decl) : str := match d with PdHeader n _ | PdQuery n _ _ => n end.
  Definition pd_params (d : param_decl) : list param_prop := match d with PdHeader _ l | PdQuery _ _ l => l end.
  Definition pd_type (d : param_decl) : ty := match d with PdHeader _ _ => TPrim PString | PdQuery _ t _ => t end.
  Definition param_means (d : param_decl) (e : str * op_parameter) : Prop :=
    let (name, a) := e in
    name = pd_name d /\
    pr_in a = (match d with PdHeader _ _ => InHeader | PdQuery _ _ _ => InQuery end) /\
    pr_description a = last_of (fun p => match p with PpDescription s => Some s | _ => None end) (pd_params d) /\
    pr_required a = last_or (fun p => match p with PpRequired b => Some b | _ => None end) (pd_params d)
                      (match d with PdHeader _ _ => true | PdQuery _ _ _ => false end) /\
    pr_deprecated a = last_or (fun p => match p with PpDeprecated b => Some b | _ => None end) (pd_params d) false /\
    exists r, pr_schema a = Some r /\
      refers (last_or (fun p => match p with PpSchema t => Some t | _ => None end) (pd_params d) (pd_type d)) r.

  Definition body_means (b : body_decl) (x : request_body) : Prop :=
    match b with
    | BodyType t => rb_description x = Some [] /\ rb_required x = true /\ refers t (rb_schema x)
    | BodyProps l =>
        rb_description x = Some (last_or (fun p => match p with BpDescription s => Some s | _ => None end) l []) /\
        rb_required x = last_or (fun p => match p with BpRequired r => Some r | _ => None end) l true /\
        exists t, last_of (fun p => match p with BpSchema t => Some t | _ => None end) l = Some t /\ refers t (rb_schema x)
    end.

  Definition response_means (d : N * option str * response_schema) (e : N * response) : Prop :=
    let '(code, desc, s) := d in
    fst e = code /\
    (match desc, reason code with
     | Some t, _ => rs_description (snd e) = t
     | None, Some t => rs_description (snd e) = t
     | None, None => rs_description (snd e) = []
     end) /\
    match s with
    | RsNone => rs_schema (snd e) = None
    | RsUnit => exists r, rs_schema (snd e) = Some r /\ refers (TPrim PUnit) r
    | RsType t => exists r, rs_schema (snd e) = Some r /\ refers t r
    | RsRaw r => rs_schema (snd e) = r
    end.

  Definition item_name (i : security_item) : str := match i with SiLit n _ | SiIdent n _ _ => n end.
  Definition requirement (l : list security_item) : bmap str (list str) := declare (map (fun i => (item_name i, [])) l).

  (** path parameters from the url *)
  Definition segment_means (s : segment) (e : path_element) : Prop :=
    match s with
    | SegLit l => e = PePath l
    | SegNamed n _ => e = PeParameter n
    | SegType text _ => exists n, type_parameter text n /\ e = PeParameter n
    end.
  Definition segment_param (s : segment) (e : str * op_parameter) : Prop :=
    let (name, a) := e in
    pr_in a = InPath /\ pr_required a = true /\ pr_deprecated a = false /\ pr_description a = None /\
    exists r, pr_schema a = Some r /\
    match s with
    | SegLit l => False
    | SegNamed n t => name = n /\ refers t r
    | SegType text t => type_parameter text name /\ refers t r
    end.
  Definition is_param (s : segment) : bool := match s with SegLit _ => false | _ => true end.

  Section Nested.
    Variable cb_means : callback_decl -> callback -> Prop.
    Definition op_means (l : list (op_prop callback_decl)) (o : operation) : Prop :=
      op_tags o = flat_map (fun p => match p with OpTags t => t | _ => [] end) l /\
      op_summary o = last_of (fun p => match p with OpSummary s => Some s | _ => None end) l /\
      op_id o = last_of (fun p => match p with OpId s => Some s | _ => None end) l /\
      op_description o = last_of (fun p => match p with OpDescription s => Some s | _ => None end) l /\
      op_deprecated o = last_or (fun p => match p with OpDeprecated b => Some b | _ => None end) l false /\
      op_security o = map requirement (flat_map (fun p => match p with OpSecurity s => s | _ => [] end) l) /\
      (match last_of (fun p => match p with OpBody b => Some b | _ => None end) l with
       | None => op_body o = None
       | Some b => exists x, op_body o = Some x /\ body_means b x
       end) /\
      (exists rs, Forall2 response_means (flat_map (fun p => match p with OpResponse c d s => [(c, d, s)] | _ => [] end) l) rs /\
         op_responses o = declare rs) /\
      (exists ps, Forall2 param_means (flat_map (fun p => match p with OpParameters d => d | _ => [] end) l) ps /\
         op_parameters o = declare ps) /\
      (exists cs, Forall2 (fun d e => fst e = cd_name d /\ cb_means d (snd e))
                    (flat_map (fun p => match p with OpCallbacks d _ => d | _ => [] end) l) cs /\
         op_callbacks o = declare cs).
    Definition path_means (d : path_decl) (e : path * path_value) : Prop :=
      (exists segs up ps,
         Forall2 (fun g s => g <> [] /\ seg g = Some s) (split_url (pd_url d)) segs /\
         Forall2 segment_means segs (fst e) /\
         Forall2 segment_param (filter is_param segs) up /\
         Forall2 param_means (flat_map (fun q => match q with PvParameters l => l | _ => [] end) (pd_props d)) ps /\
         pv_parameters (snd e) = declare (up ++ ps)) /\
      pv_summary (snd e) = last_of (fun q => match q with PvSummary s => Some s | _ => None end) (pd_props d) /\
      pv_description (snd e) = last_of (fun q => match q with PvDescription s => Some s | _ => None end) (pd_props d) /\
      (exists os, Forall2 (fun q e => fst e = fst q /\ op_means (snd q) (snd e))
                    (flat_map (fun q => match q with PvMethod m l => [(m, l)] | _ => [] end) (pd_props d)) os /\
         pv_operations (snd e) = declare os).
  End Nested.
  (** FINDING: the paths of a callback named by a literal are dropped *)
  Inductive callback_means : callback_decl -> callback -> Prop :=
  | CmLit n l : callback_means (CbLit n l) (Callback [])
  | CmIdent n l ps : Forall2 (path_means callback_means) l ps -> callback_means (CbIdent n l) (Callback ps).

  Definition info_means (l : list info_prop) (i : info) : Prop :=
    in_title i = last_or (fun p => match p with IpTitle s => Some s | _ => None end) l [] /\
    in_version i = last_or (fun p => match p with IpVersion s => Some s | _ => None end) l [] /\
    in_description i = last_of (fun p => match p with IpDescription s => Some s | _ => None end) l.
  Definition api_means (a : api) (d : opg) : Prop :=
    (match last_of (fun s => match s with ScInfo l => Some l | _ => None end) a with
     | None => og_info d = info_default
     | Some l => info_means l (og_info d)
     end) /\
    og_tags d = declare (map (fun t => (fst t, {| tg_description := snd t |})) (flat_map (fun s => match s with ScTags l => l | _ => [] end) a)) /\
    og_servers d = map (fun s => {| sv_url := fst s; sv_description := snd s |}) (flat_map (fun s => match s with ScServers l => l | _ => [] end) a) /\
    Forall2 (path_means callback_means) (flat_map (fun s => match s with ScPaths l => l | _ => [] end) a) (og_paths d).
End Means.

(** ** Results, without fuel *)
(** the invocation gives the document [d]; does not compile; panics; never returns *)
Definition describes (E : env) (reason : N -> option str) (seg : list tree -> option segment) (a : api) (d : opg) : Prop :=
  exists fuel, describe_api E fuel reason seg a = Done d.
Definition does_not_compile (E : env) (reason : N -> option str) (seg : list tree -> option segment) (a : api) : Prop :=
  forall fuel, describe_api E fuel reason seg a = Rejected.
Definition panics (E : env) (reason : N -> option str) (seg : list tree -> option segment) (a : api) : Prop :=
  exists fuel, describe_api E fuel reason seg a = Panicked.
Definition never_returns (E : env) (reason : N -> option str) (seg : list tree -> option segment) (a : api) : Prop :=
  forall fuel, describe_api E fuel reason seg a = NoReturn.

(** ** Finding one's way in the declarations *)

(** [ds] is [ds0] or the paths of a callback (named by an identifier) declared in it, at any depth *)
Inductive declared_within (ds0 : list path_decl) : list path_decl -> Prop :=
| dw_self : declared_within ds0 ds0
| dw_callback ds d m l cs t n ds' : declared_within ds0 ds -> In d ds -> In (PvMethod m l) (pd_props d) -> In (OpCallbacks cs t) l ->
    In (CbIdent n ds') cs -> declared_within ds0 ds'.
Definition api_paths (a : api) : list path_decl := flat_map (fun s => match s with ScPaths l => l | _ => [] end) a.
Definition declares_path (a : api) (d : path_decl) : Prop := exists ds, declared_within (api_paths a) ds /\ In d ds.
Definition declares_operation (a : api) (l : list (op_prop callback_decl)) : Prop :=
  exists d m, declares_path a d /\ In (PvMethod m l) (pd_props d).
(** [r] is a response schema written by hand *)
Definition raw_response (a : api) (r : model_ref) : Prop :=
  exists l c d, declares_operation a l /\ In (OpResponse c d (RsRaw (Some r))) l.

(** ** [describe_type!] *)
(** the link [l] is written in the invocation, or occurs in a schema given as it is *)
Inductive written (l : str) : describe -> Prop :=
| wr_model m : occurs_in l m -> written l (DtRawModel m)
| wr_type d data : occurs_in l (Model d data) -> written l (DtRawType d data)
| wr_items d v : written_value l v -> written l (DtArray d v)
| wr_property d ps k b v : In (k, b, v) ps -> written_value l v -> written l (DtObject d ps)
with written_value (l : str) : describe_value -> Prop :=
| wr_link : written_value l (DvLink l)
| wr_inline d : written l d -> written_value l (DvInline d).

(** no schema is given as it is *)
Inductive all_described : describe -> Prop :=
| ad_string d f e v : all_described (DtString d f e v)
| ad_number d f e : all_described (DtNumber d f e)
| ad_integer d f e : all_described (DtInteger d f e)
| ad_boolean d : all_described (DtBoolean d)
| ad_array d v : all_described_value v -> all_described (DtArray d v)
| ad_object d ps : (forall k b v, In (k, b, v) ps -> all_described_value v) -> all_described (DtObject d ps)
with all_described_value : describe_value -> Prop :=
| ad_link l : all_described_value (DvLink l)
| ad_inline d : all_described d -> all_described_value (DvInline d).
(** the schema [m'] stands in [m], at any depth (or is [m]) *)
Inductive inside (m' : model) : model -> Prop :=
| in_self : inside m' m'
| in_child m c : child (Inline c) m -> inside m' c -> inside m' m.

(** no property is declared twice in the same object *)
Inductive names_distinct : describe -> Prop :=
| nd_model m : names_distinct (DtRawModel m)
| nd_type d x : names_distinct (DtRawType d x)
| nd_string d f e v : names_distinct (DtString d f e v)
| nd_number d f e : names_distinct (DtNumber d f e)
| nd_integer d f e : names_distinct (DtInteger d f e)
| nd_boolean d : names_distinct (DtBoolean d)
| nd_array d v : (forall x, v = DvInline x -> names_distinct x) -> names_distinct (DtArray d v)
| nd_object d ps : NoDup (map (fun e => fst (fst e)) ps) -> (forall k b x, In (k, b, DvInline x) ps -> names_distinct x) -> names_distinct (DtObject d ps).

(** ** Documents *)
(** the schemes named by identifiers in the security requirements of an invocation *)
Definition uses_scheme (a : api) (name : str) (s : security_scheme) : Prop :=
  exists l reqs req roles, declares_operation a l /\ In (OpSecurity reqs) l /\ In req reqs /\ In (SiIdent name s roles) req.
(** the schemes declared under [security_schemes] *)
Definition declares_scheme (a : api) (name : str) (s : security_scheme) : Prop :=
  exists ds x, In (ScSecurity ds) a /\ In x ds /\ scheme_declared x = Some (name, s).
(** a scheme named by a literal *)
Definition literal_scheme (a : api) (name : str) : Prop :=
  exists l reqs req roles, declares_operation a l /\ In (OpSecurity reqs) l /\ In req reqs /\ In (SiLit name roles) req.

(** the first element of [l] that is selected *)
Fixpoint first_of {X A} (sel : X -> option A) (l : list X) : option A :=
  match l with
  | [] => None
  | x :: l' => match sel x with Some a => Some a | None => first_of sel l' end
  end.
Definition event_declares (n : str) (e : event) : option security_scheme :=
  match e with EvDeclare n' s => if str_eqb n n' then Some s else None | _ => None end.
Definition event_uses (n : str) (e : event) : option security_scheme :=
  match e with EvUse n' s => if str_eqb n n' then Some s else None | _ => None end.

Section Written.
  Variable seg : list tree -> option segment.

  (** the type [t] is written in the invocation, in a place that mentions it *)
  Definition param_type (q : param_decl) (t : ty) : Prop := t = pd_type q \/ In (PpSchema t) (pd_params q).
  Definition body_type (b : body_decl) (t : ty) : Prop := match b with BodyType t' => t = t' | BodyProps l => In (BpSchema t) l end.
  Definition response_type (s : response_schema) (t : ty) : Prop :=
    match s with RsUnit => t = TPrim PUnit | RsType t' => t = t' | _ => False end.
  Inductive names_type (a : api) (t : ty) : Prop :=
  | nt_type pd g text n : declares_path a pd -> In g (split_url (pd_url pd)) -> seg g = Some (SegType text t) -> type_parameter text n -> names_type a t
  | nt_named pd g n : declares_path a pd -> In g (split_url (pd_url pd)) -> seg g = Some (SegNamed n t) -> names_type a t
  | nt_path_parameter pd l q : declares_path a pd -> In (PvParameters l) (pd_props pd) -> In q l -> param_type q t -> names_type a t
  | nt_parameter ops l q : declares_operation a ops -> In (OpParameters l) ops -> In q l -> param_type q t -> names_type a t
  | nt_body ops b : declares_operation a ops -> In (OpBody b) ops -> body_type b t -> names_type a t
  | nt_response ops c d s : declares_operation a ops -> In (OpResponse c d s) ops -> response_type s t -> names_type a t.
  (** a type stands in a url whose name gives no parameter: it is empty after the last colon, or starts with a non-ASCII letter *)
  Definition unnameable (a : api) : Prop :=
    exists pd g text t, declares_path a pd /\ In g (split_url (pd_url pd)) /\ seg g = Some (SegType text t) /\ forall n, ~ type_parameter text n.

  (** the invocation breaks a rule of the macro *)
  Definition twice {X A} (sel : X -> option A) (l : list X) : Prop :=
    exists l1 x l2 y l3, l = l1 ++ x :: l2 ++ y :: l3 /\ sel x <> None /\ sel y <> None.
  Definition ip_title (p : info_prop) := match p with IpTitle s => Some s | _ => None end.
  Definition ip_version (p : info_prop) := match p with IpVersion s => Some s | _ => None end.
  Definition ip_description (p : info_prop) := match p with IpDescription s => Some s | _ => None end.
  Definition incomplete (d : scheme_decl) : Prop :=
    match d with
    | SdHttp _ l => forall k, ~ In (HpScheme k) l
    | SdApiKey _ l => forall s, ~ In (KpName s) l
    end.
  Definition item_roles (i : security_item) : list str := match i with SiLit _ r | SiIdent _ _ r => r end.
  Inductive breaks_rule (a : api) : Prop :=
  | br_info l : In (ScInfo l) a -> (twice ip_title l \/ twice ip_version l \/ twice ip_description l) -> breaks_rule a
  | br_scheme ds x : In (ScSecurity ds) a -> In x ds -> incomplete x -> breaks_rule a
  | br_url pd g : declares_path a pd -> In g (split_url (pd_url pd)) -> g = [] \/ seg g = None -> breaks_rule a
  | br_body ops l : declares_operation a ops -> In (OpBody (BodyProps l)) ops -> (forall t, ~ In (BpSchema t) l) -> breaks_rule a
  | br_requirement ops reqs : declares_operation a ops -> In (OpSecurity reqs) ops -> In [] reqs -> breaks_rule a
  | br_roles ops reqs r i : declares_operation a ops -> In (OpSecurity reqs) ops -> In r reqs -> In i r -> item_roles i <> [] -> breaks_rule a
  | br_callback ops l1 n ps l2 trailing : declares_operation a ops -> In (OpCallbacks (l1 ++ CbLit n ps :: l2) trailing) ops ->
      l2 <> [] \/ trailing = true -> breaks_rule a.
End Written.

(** ** The settings of an operation *)
Inductive setting := StTags | StSummary | StId | StDescription | StDeprecated | StSecurity | StBody | StResponses | StParameters | StCallbacks.
Definition same (s : setting) (o o' : operation) : Prop :=
  match s with
  | StTags => op_tags o = op_tags o'
  | StSummary => op_summary o = op_summary o'
  | StId => op_id o = op_id o'
  | StDescription => op_description o = op_description o'
  | StDeprecated => op_deprecated o = op_deprecated o'
  | StSecurity => op_security o = op_security o'
  | StBody => op_body o = op_body o'
  | StResponses => op_responses o = op_responses o'
  | StParameters => op_parameters o = op_parameters o'
  | StCallbacks => op_callbacks o = op_callbacks o'
  end.
(** [o'] differs from [o] at most in the setting [s] *)
Definition changes_only (s : setting) (o o' : operation) : Prop := forall s', s' <> s -> same s' o o'.
(** a call of one of the builder methods; a sequence of calls *)
Inductive builder_call := BcSummary (s : str) | BcId (s : str) | BcDescription (s : str) | BcDeprecated (b : bool) | BcBody (b : request_body).
Definition call (c : builder_call) (o : operation) : operation :=
  match c with
  | BcSummary s => with_summary s o
  | BcId s => with_operation_id s o
  | BcDescription s => with_description s o
  | BcDeprecated b => mark_deprecated b o
  | BcBody b => with_request_body b o
  end.
Definition calls (l : list builder_call) (o : operation) : operation := fold_left (fun o c => call c o) l o.
Definition call_setting (c : builder_call) : setting :=
  match c with BcSummary _ => StSummary | BcId _ => StId | BcDescription _ => StDescription | BcDeprecated _ => StDeprecated | BcBody _ => StBody end.

(** ** The declarations of a path and of an operation, in order *)
Definition methods_of (pd : path_decl) : list (http_method * list (op_prop callback_decl)) :=
  flat_map (fun q => match q with PvMethod m l => [(m, l)] | _ => [] end) (pd_props pd).
Definition path_params_of (pd : path_decl) : list param_decl := flat_map (fun q => match q with PvParameters l => l | _ => [] end) (pd_props pd).
Definition responses_of (l : list (op_prop callback_decl)) : list (N * option str * response_schema) :=
  flat_map (fun p => match p with OpResponse c d s => [(c, d, s)] | _ => [] end) l.
Definition params_of (l : list (op_prop callback_decl)) : list param_decl := flat_map (fun p => match p with OpParameters d => d | _ => [] end) l.
Definition callbacks_of (l : list (op_prop callback_decl)) : list callback_decl := flat_map (fun p => match p with OpCallbacks d _ => d | _ => [] end) l.
Definition tags_of (a : api) : list (str * option str) := flat_map (fun s => match s with ScTags l => l | _ => [] end) a.

(** the template of the path has the parameter [n], of type [t] *)
Definition template_parameter (seg : list tree -> option segment) (pd : path_decl) (n : str) (t : ty) : Prop :=
  exists g, In g (split_url (pd_url pd)) /\ (seg g = Some (SegNamed n t) \/ exists text, seg g = Some (SegType text t) /\ type_parameter text n).

(** the emitted document lists [w] under [paths], for the path [p] *)
Definition emits_path (doc : value) (p : path) (w : value) : Prop :=
  exists l, member "paths" doc = Some (VMap l) /\ In (VStr (render_path p), w) l.
(** the emitted object lists a required path parameter [n] *)
Definition emits_path_parameter (w : value) (n : str) : Prop :=
  exists l x, member "parameters" w = Some (VSeq l) /\ In x l /\ member "name" x = Some (VStr n) /\
    member "in" x = Some (VStr (u "path")) /\ member "required" x = Some (VBool true).
