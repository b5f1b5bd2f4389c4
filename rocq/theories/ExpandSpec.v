(** What the expressions in an invocation of describe_api! say (C77): how an invocation with expressions ([xapi], Expand.v)
    is read as a description with values ([api], Api.v), where the caller's variables are [s]. *)
From Coq Require Import List NArith.
From Verif Require Import Str Api Expand.
Import ListNotations.

(** the value of a variable of the caller: the innermost of that name *)
Fixpoint var (s : scope) (n : str) : option val :=
  match s with [] => None | (m, v) :: s' => if list_eq_dec N.eq_dec n m then Some v else var s' n end.

(** expressions: of something that can be displayed, as the text it is displayed as; of a truth value *)
Definition shows (s : scope) (e : uexpr) (t : str) : Prop := e s = XLit t \/ e s = XText t.
(** of a reference to a text, not a text *)
Definition refers (s : scope) (e : uexpr) (t : str) : Prop := e s = XLit t.
Definition holds (s : scope) (e : uexpr) (b : bool) : Prop := e s = XBool b.

Inductive reads_param_prop (s : scope) : xparam_prop -> param_prop -> Prop :=
| rpp_description e t : shows s e t -> reads_param_prop s (XpDescription e) (PpDescription t)
| rpp_required e b : holds s e b -> reads_param_prop s (XpRequired e) (PpRequired b)
| rpp_deprecated e b : holds s e b -> reads_param_prop s (XpDeprecated e) (PpDeprecated b)
| rpp_schema t : reads_param_prop s (XpSchema t) (PpSchema t).
Inductive reads_param (s : scope) : xparam_decl -> param_decl -> Prop :=
| rp_header e n l l' : shows s e n -> Forall2 (reads_param_prop s) l l' -> reads_param s (XdHeader e l) (PdHeader n l')
| rp_query n t l l' : Forall2 (reads_param_prop s) l l' -> reads_param s (XdQuery n t l) (PdQuery n t l').
Inductive reads_response (s : scope) : xresponse_schema -> response_schema -> Prop :=
| rr_none : reads_response s XrNone RsNone
| rr_unit : reads_response s XrUnit RsUnit
| rr_type t : reads_response s (XrType t) (RsType t)
| rr_raw e r : e s = XOption (option_map XRef r) -> reads_response s (XrRaw e) (RsRaw r).
(** a variable that holds a security scheme of any kind, or one of the two structs for the kinds *)
Inductive is_scheme : val -> security_scheme -> Prop :=
| is_scheme_any sc : is_scheme (XScheme sc) sc
| is_scheme_http h : is_scheme (XHttp h) (Http h)
| is_scheme_key k : is_scheme (XKey k) (ApiKey k).
Inductive reads_security (s : scope) : xsecurity_item -> security_item -> Prop :=
| rs_lit n roles : reads_security s (XiLit n roles) (SiLit n roles)
| rs_ident n v sc roles : var s n = Some v -> is_scheme v sc -> reads_security s (XiIdent n roles) (SiIdent n sc roles).

Section Nested.
  Variable s : scope.
  Variable reads_callback : xcallback_decl -> callback_decl -> Prop.
  Inductive reads_op_prop : xop_prop xcallback_decl -> op_prop callback_decl -> Prop :=
  | ro_summary e t : refers s e t -> reads_op_prop (XoSummary e) (OpSummary t)
  | ro_id e t : refers s e t -> reads_op_prop (XoId e) (OpId t)
  | ro_description e t : refers s e t -> reads_op_prop (XoDescription e) (OpDescription t)
  | ro_deprecated e b : holds s e b -> reads_op_prop (XoDeprecated e) (OpDeprecated b)
  | ro_tags l : reads_op_prop (XoTags l) (OpTags l)
  | ro_parameters l l' : Forall2 (reads_param s) l l' -> reads_op_prop (XoParameters l) (OpParameters l')
  | ro_callbacks l l' t : Forall2 reads_callback l l' -> reads_op_prop (XoCallbacks l t) (OpCallbacks l' t)
  | ro_security l l' : Forall2 (Forall2 (reads_security s)) l l' -> reads_op_prop (XoSecurity l) (OpSecurity l')
  | ro_body b : reads_op_prop (XoBody b) (OpBody b)
  | ro_response c d r r' : reads_response s r r' -> reads_op_prop (XoResponse c d r) (OpResponse c d r').
  Inductive reads_path_prop : xpath_prop xcallback_decl -> path_prop callback_decl -> Prop :=
  | rv_summary t : reads_path_prop (XvSummary t) (PvSummary t)
  | rv_description t : reads_path_prop (XvDescription t) (PvDescription t)
  | rv_parameters l l' : Forall2 (reads_param s) l l' -> reads_path_prop (XvParameters l) (PvParameters l')
  | rv_method m l l' : Forall2 reads_op_prop l l' -> reads_path_prop (XvMethod m l) (PvMethod m l').
  Inductive reads_path : xpath_decl -> path_decl -> Prop :=
  | rd_path url l l' : Forall2 reads_path_prop l l' -> reads_path (XPathDecl url l) (Build_path_decl_of url l').
End Nested.
Inductive reads_callback (s : scope) : xcallback_decl -> callback_decl -> Prop :=
| rc_lit n l l' : reads_callback s (XcLit n l) (CbLit n l')
| rc_ident n l l' : Forall2 (reads_path s (reads_callback s)) l l' -> reads_callback s (XcIdent n l) (CbIdent n l').

Inductive reads_http_prop (s : scope) : xhttp_prop -> http_prop -> Prop :=
| rh_scheme k : reads_http_prop s (XhScheme k) (HpScheme k)
| rh_format e t : shows s e t -> reads_http_prop s (XhFormat e) (HpFormat t)
| rh_description e t : shows s e t -> reads_http_prop s (XhDescription e) (HpDescription t).
Inductive reads_key_prop (s : scope) : xkey_prop -> key_prop -> Prop :=
| rk_in i : reads_key_prop s (XkIn i) (KpIn i)
| rk_name e t : shows s e t -> reads_key_prop s (XkName e) (KpName t)
| rk_description e t : shows s e t -> reads_key_prop s (XkDescription e) (KpDescription t).
Inductive reads_scheme (s : scope) : xscheme_decl -> scheme_decl -> Prop :=
| rsd_http n l l' : Forall2 (reads_http_prop s) l l' -> reads_scheme s (XsHttp n l) (SdHttp n l')
| rsd_key e n l l' : shows s e n -> Forall2 (reads_key_prop s) l l' -> reads_scheme s (XsApiKey e l) (SdApiKey n l').
Inductive reads_server_text (s : scope) : xserver_text -> str -> Prop :=
| rst_lit t : reads_server_text s (XtLit t) t
| rst_var n v t : var s n = Some v -> v = XLit t \/ v = XText t -> reads_server_text s (XtVar n) t.
Inductive reads_opt {X A} (R : X -> A -> Prop) : option X -> option A -> Prop :=
| ropt_none : reads_opt R None None
| ropt_some x a : R x a -> reads_opt R (Some x) (Some a).

(** The properties of [info] as the caller means them: each expression with the caller's variables. *)
Inductive info_prop_meant (s : scope) : xinfo_prop -> info_prop -> Prop :=
| im_title e t : shows s e t -> info_prop_meant s (XnTitle e) (IpTitle t)
| im_version e t : shows s e t -> info_prop_meant s (XnVersion e) (IpVersion t)
| im_description e t : shows s e t -> info_prop_meant s (XnDescription e) (IpDescription t).
Definition info_meant (s : scope) : list xinfo_prop -> list info_prop -> Prop := Forall2 (info_prop_meant s).
(** The same as the macro reads them: the properties given before are variables of their names. *)
Inductive info_in_turn : scope -> list xinfo_prop -> list info_prop -> Prop :=
| it_nil s : info_in_turn s [] []
| it_title s e t l l' : shows s e t -> info_in_turn ((u "title", XText t) :: s) l l' -> info_in_turn s (XnTitle e :: l) (IpTitle t :: l')
| it_version s e t l l' : shows s e t -> info_in_turn ((u "version", XText t) :: s) l l' ->
    info_in_turn s (XnVersion e :: l) (IpVersion t :: l')
| it_description s e t l l' : shows s e t -> info_in_turn ((u "description", XOption (Some (XText t))) :: s) l l' ->
    info_in_turn s (XnDescription e :: l) (IpDescription t :: l').

Section Sections.
  Variable reads_info : scope -> list xinfo_prop -> list info_prop -> Prop.
  Variable s : scope.
  Inductive reads_section : xsection -> api_section -> Prop :=
  | rsec_info l l' : reads_info s l l' -> reads_section (XcInfo l) (ScInfo l')
  | rsec_tags l l' : Forall2 (fun x a => fst x = fst a /\ reads_opt (shows s) (snd x) (snd a)) l l' -> reads_section (XcTags l) (ScTags l')
  | rsec_servers l l' :
      Forall2 (fun x a => reads_server_text s (fst x) (fst a) /\ reads_opt (reads_server_text s) (snd x) (snd a)) l l' ->
      reads_section (XcServers l) (ScServers l')
  | rsec_security l l' : Forall2 (reads_scheme s) l l' -> reads_section (XcSecurity l) (ScSecurity l')
  | rsec_paths l l' : Forall2 (reads_path s (reads_callback s)) l l' -> reads_section (XcPaths l) (ScPaths l').
  Definition reads_api : xapi -> api -> Prop := Forall2 reads_section.
End Sections.

(** the invocation has no callbacks *)
Definition no_callbacks (x : xapi) : Prop :=
  forall l d m ops cs t, In (XcPaths l) x -> In d l -> In (XvMethod m ops) (xd_props d) -> In (XoCallbacks cs t) ops -> cs = [].

(** the value of the expression does not depend on a variable named [n] *)
Definition ignores (n : str) (e : uexpr) : Prop := forall v s1 s2, e (s1 ++ (n, v) :: s2) = e (s1 ++ s2).
Definition info_expr (p : xinfo_prop) : uexpr := match p with XnTitle e | XnVersion e | XnDescription e => e end.
(** no expression in [info] depends on a variable with the name of a property given before it *)
Definition info_apart (l : list xinfo_prop) : Prop :=
  forall l1 p l2 q, l = l1 ++ p :: l2 -> In q l1 -> ignores (info_name q) (info_expr p).
