(** The expressions in an invocation of describe_api! (C80): in the order in which they are written, and in the order in which they are
    evaluated. *)
From Coq Require Import List.
From Verif Require Import Str Api Expand.
Import ListNotations.

Definition param_prop_exprs (p : xparam_prop) : list uexpr :=
  match p with XpDescription e | XpRequired e | XpDeprecated e => [e] | XpSchema _ => [] end.
Definition http_prop_exprs (p : xhttp_prop) : list uexpr := match p with XhScheme _ => [] | XhFormat e | XhDescription e => [e] end.
Definition key_prop_exprs (p : xkey_prop) : list uexpr := match p with XkIn _ => [] | XkName e | XkDescription e => [e] end.
Definition info_prop_exprs (p : xinfo_prop) : list uexpr := match p with XnTitle e | XnVersion e | XnDescription e => [e] end.
Definition tag_exprs (t : str * option uexpr) : list uexpr := match snd t with Some e => [e] | None => [] end.

(** [name_first]: the name of a header or of an apiKey scheme stands before its properties;
    [literal_callbacks]: the contents of a callback that is named by a literal count. *)
Section Order.
  Variables name_first literal_callbacks : bool.
  Definition named (name : uexpr) (props : list uexpr) : list uexpr := if name_first then name :: props else props ++ [name].
  Definition param_exprs (d : xparam_decl) : list uexpr :=
    match d with
    | XdHeader n props => named n (flat_map param_prop_exprs props)
    | XdQuery _ _ props => flat_map param_prop_exprs props
    end.
  Definition scheme_exprs (d : xscheme_decl) : list uexpr :=
    match d with
    | XsHttp _ props => flat_map http_prop_exprs props
    | XsApiKey n props => named n (flat_map key_prop_exprs props)
    end.
  Section Nested.
    Variable callback_exprs : xcallback_decl -> list uexpr.
    Definition op_prop_exprs (p : xop_prop xcallback_decl) : list uexpr :=
      match p with
      | XoSummary e | XoId e | XoDescription e | XoDeprecated e => [e]
      | XoTags _ | XoSecurity _ | XoBody _ => []
      | XoParameters l => flat_map param_exprs l
      | XoCallbacks l _ => flat_map callback_exprs l
      | XoResponse _ _ (XrRaw e) => [e]
      | XoResponse _ _ _ => []
      end.
    Definition path_prop_exprs (p : xpath_prop xcallback_decl) : list uexpr :=
      match p with
      | XvSummary _ | XvDescription _ => []
      | XvParameters l => flat_map param_exprs l
      | XvMethod _ l => flat_map op_prop_exprs l
      end.
    Definition path_exprs (d : xpath_decl) : list uexpr := flat_map path_prop_exprs (xd_props d).
  End Nested.
  Fixpoint callback_exprs (c : xcallback_decl) : list uexpr :=
    match c with
    | XcLit _ paths => if literal_callbacks then flat_map (path_exprs callback_exprs) paths else []
    | XcIdent _ paths => flat_map (path_exprs callback_exprs) paths
    end.
  Definition section_exprs (s : xsection) : list uexpr :=
    match s with
    | XcInfo l => flat_map info_prop_exprs l
    | XcTags l => flat_map tag_exprs l
    | XcServers _ => []
    | XcSecurity l => flat_map scheme_exprs l
    | XcPaths l => flat_map (path_exprs callback_exprs) l
    end.
  Definition exprs : xapi -> list uexpr := flat_map section_exprs.
End Order.

(** all of them, as they stand in the source *)
Definition written : xapi -> list uexpr := exprs true true.
(** a name after the properties of what it names; not what is in callbacks named by a literal *)
Definition evaluated : xapi -> list uexpr := exprs false false.

(** the paths of an invocation, with those of callbacks named by identifiers *)
Inductive path_in (l : list xpath_decl) : xpath_decl -> Prop :=
| pi_here d : In d l -> path_in l d
| pi_callback d m ops cs t n ps d' :
    path_in l d -> In (XvMethod m ops) (xd_props d) -> In (XoCallbacks cs t) ops -> In (XcIdent n ps) cs -> In d' ps -> path_in l d'.
Definition has_path (x : xapi) (d : xpath_decl) : Prop := exists l, In (XcPaths l) x /\ path_in l d.
(** no callback is named by a literal *)
Definition no_literal_callbacks (x : xapi) : Prop :=
  forall d m ops cs t n ps, has_path x d -> In (XvMethod m ops) (xd_props d) -> In (XoCallbacks cs t) ops -> ~ In (XcLit n ps) cs.
(** a header of a path or of an operation *)
Definition has_header (x : xapi) (name : uexpr) (props : list xparam_prop) : Prop :=
  exists d l, has_path x d /\ In (XdHeader name props) l /\
    (In (XvParameters l) (xd_props d) \/ exists m ops, In (XvMethod m ops) (xd_props d) /\ In (XoParameters l) ops).
