(** The rules of [describe_api!] and [describe_type!] (opg/src/macros.rs): from token trees to the syntax of Api.v.

    Each rule's left hand side is written as it stands in the source, without the leading [@name $result $context ..]
    that only the macro itself writes; its right hand side says which piece of syntax the expansion stands for.
    Expressions, types and variables of the caller are resolved by oracles.  For rustc's recursion limit see Levels.v. *)
From Verif Require Export Match Api.
Local Open Scope string_scope. Local Open Scope list_scope.

(** ** Patterns *)
Definition kw (s : string) : pat := PT (tk_id s).
Definition pu (s : string) : pat := PT (tk_pu s).
Definition COMMA : tree := tk_pu ",".
(** [$($other:tt)*], [$($other:tt)+] *)
Definition tts : pat := PR [PV FTt] None RStar.
Definition tts1 : pat := PR [PV FTt] None RPlus.
(** [$( .. )?], [$( .. ),*] *)
Definition opt (ps : list pat) : pat := PR ps None ROpt.
Definition sep_by_commas (ps : list pat) : pat := PR ps (Some COMMA) RStar.
Definition opt_comma : pat := opt [pu ","].

(** ** Bindings *)
(** the token trees of [$($x:tt)*] *)
Definition trees (l : list (list binding)) : list tree :=
  flat_map (fun b => match b with [BToks ts] => ts | _ => [] end) l.
Fixpoint all_some {A B} (f : A -> option B) (l : list A) : option (list B) :=
  match l with
  | [] => Some []
  | a :: l' => match f a, all_some f l' with Some b, Some bs => Some (b :: bs) | _, _ => None end
  end.
Definition str_lit (v : lval) : option str := match v with VStr s => Some s | _ => None end.
Definition bool_lit (v : lval) : option bool := match v with VBool b => Some b | _ => None end.
(** [$( (..) )?] around a literal that must be a string *)
Definition opt_str_lit (l : list (list binding)) : option (option str) :=
  match l with [] => Some None | [[BLit v]] => option_map Some (str_lit v) | _ => None end.

(** models.rs:201-212, 501-507 and 1098-1102: the variants named by an identifier *)
Definition method_of (s : str) : option http_method :=
  if str_eqb s (u "GET") then Some GET else if str_eqb s (u "PUT") then Some PUT
  else if str_eqb s (u "POST") then Some POST else if str_eqb s (u "DELETE") then Some DELETE
  else if str_eqb s (u "OPTIONS") then Some OPTIONS else if str_eqb s (u "HEAD") then Some HEAD
  else if str_eqb s (u "PATCH") then Some PATCH else if str_eqb s (u "TRACE") then Some TRACE else None.
Definition location_of (s : str) : option parameter_in :=
  if str_eqb s (u "Query") then Some InQuery else if str_eqb s (u "Header") then Some InHeader
  else if str_eqb s (u "Path") then Some InPath else if str_eqb s (u "Cookie") then Some InCookie else None.
Definition kind_of (s : str) : option http_kind :=
  if str_eqb s (u "Basic") then Some KBasic else if str_eqb s (u "Bearer") then Some KBearer else None.

(** the caller's code: what expressions, types and variables mean; [None]: the compiler rejects them *)
Record caller := {
  begins : tree -> bool;                              (* may the token begin an expression? *)
  expr_at : list tree -> option nat;                  (* how many trees does the expression at the beginning take? *)
  path_at : list tree -> option nat;                  (* .. the type path .. *)
  text_of : list tree -> option str;                  (* [(e).to_string()] *)
  text_of_ref : list tree -> option str;              (* [e.to_string()] for an [e : &T], passed as such (models.rs:290-312) *)
  bool_of : list tree -> option bool;                 (* [e : bool] *)
  type_of : list tree -> option ty;                   (* a path as a type with a schema *)
  shown : list tree -> str;                           (* [stringify!] of a path *)
  schema_of : list tree -> option (option model_ref); (* the expression in braces of a response *)
  text_var : str -> option str;                       (* a variable that is converted into a [String] *)
  scheme_var : str -> option security_scheme;         (* a variable holding a security scheme *)
  model_var : str -> option model;                    (* .. a [Model] *)
  data_var : str -> option model_data;                (* .. a [ModelData] *)
  other_text : tlit -> option str;                    (* [to_string()] of a literal that is no string *)
  negated : tlit -> option str                        (* .. of a literal with a minus sign *)
}.

(** An invocation that calls itself with what is left over: nothing is left, or an item and the rest. *)
Inductive munched (X : Type) := Stop | More (x : X) (rest : list tree).
Arguments Stop {X}. Arguments More {X}.

Section Syntax.
  Variable C : caller.
  Definition match_rules {X} : list (rule X) -> list tree -> option X := first_rule (begins C) (expr_at C) (path_at C).
  Fixpoint munch_rules (n : nat) {X} (rs : list (rule (munched X))) (ts : list tree) : option (list X) :=
    match n with
    | O => None
    | S n' =>
        match match_rules rs ts with
        | None => None
        | Some Stop => Some []
        | Some (More x rest) => option_map (cons x) (munch_rules n' rs rest)
        end
    end.
  (** [describe_api!(@.. $($x)*,)]: an item more than there are tokens is never reached *)
  Definition munch_all {X} (rs : list (rule (munched X))) (ts : list tree) : option (list X) :=
    munch_rules (S (S (length ts))) rs (ts ++ [COMMA]).
  Definition more {X} (x : option X) (rest : list (list binding)) : option (munched X) := option_map (fun x => More x (trees rest)) x.
  (** the last rule of most lists: [$(,)?] *)
  Definition stop_rule {X} : rule (munched X) := Build_rule [opt_comma] (fun _ => Some Stop).

  (** macros.rs:715-736.  The fourth rule repeats the first and is never reached. *)
  Definition url_segment : list tree -> option segment :=
    match_rules
      [Build_rule [PV FLit] (fun b => match b with [BLit v] => option_map SegLit (str_lit v) | _ => None end);
       Build_rule [PV FPath] (fun b => match b with [BToks p] => option_map (SegType (shown C p)) (type_of C p) | _ => None end);
       Build_rule [PG Brace [PV FIdent; pu ":"; PV FPath]]
         (fun b => match b with [BId n; BToks p] => option_map (SegNamed n) (type_of C p) | _ => None end)].

  (** macros.rs:340-349 *)
  Definition info_item (b : list binding) : option info_prop :=
    match b with
    | [BId k; BToks e] =>
        if str_eqb k (u "title") then option_map IpTitle (text_of C e)
        else if str_eqb k (u "version") then option_map IpVersion (text_of C e)
        else if str_eqb k (u "description") then option_map IpDescription (text_of C e) else None
    | _ => None
    end.
  Definition info_rules : list (rule (list info_prop)) :=
    [Build_rule [sep_by_commas [PV FIdent; pu ":"; PV FExpr]; opt_comma]
       (fun b => match b with [BRep l; BRep _] => all_some info_item l | _ => None end)].
  (** macros.rs:352-356 *)
  Definition tag_item (b : list binding) : option (str * option str) :=
    match b with
    | [BId k; BRep []] => Some (k, None)
    | [BId k; BRep [[BToks e]]] => option_map (fun s => (k, Some s)) (text_of C e)
    | _ => None
    end.
  Definition tags_rules : list (rule (list (str * option str))) :=
    [Build_rule [sep_by_commas [PV FIdent; opt [PG Paren [PV FExpr]]]; opt_comma]
       (fun b => match b with [BRep l; BRep _] => all_some tag_item l | _ => None end)].
  (** macros.rs:359-366 *)
  Definition server_text : list tree -> option str :=
    match_rules
      [Build_rule [PV FLit] (fun b => match b with [BLit v] => str_lit v | _ => None end);
       Build_rule [PV FIdent] (fun b => match b with [BId n] => text_var C n | _ => None end)].
  Definition server_item (b : list binding) : option (str * option str) :=
    match b with
    | [BToks t; BRep []] => option_map (fun s => (s, None)) (server_text t)
    | [BToks t; BRep [[BToks d]]] =>
        match server_text t, server_text d with Some s, Some e => Some (s, Some e) | _, _ => None end
    | _ => None
    end.
  Definition servers_rules : list (rule (list (str * option str))) :=
    [Build_rule [sep_by_commas [PV FTt; opt [PG Paren [PV FTt]]]; opt_comma]
       (fun b => match b with [BRep l; BRep _] => all_some server_item l | _ => None end)].

  (** macros.rs:419-431 *)
  Definition http_rules : list (rule (munched http_prop)) :=
    [Build_rule [kw "scheme"; pu ":"; PV FIdent; pu ","; tts]
       (fun b => match b with [BId v; BRep o] => more (option_map HpScheme (kind_of v)) o | _ => None end);
     Build_rule [kw "bearer_format"; pu ":"; PV FExpr; pu ","; tts]
       (fun b => match b with [BToks e; BRep o] => more (option_map HpFormat (text_of C e)) o | _ => None end);
     Build_rule [kw "description"; pu ":"; PV FExpr; pu ","; tts]
       (fun b => match b with [BToks e; BRep o] => more (option_map HpDescription (text_of C e)) o | _ => None end);
     stop_rule].
  (** macros.rs:434-446 *)
  Definition key_rules : list (rule (munched key_prop)) :=
    [Build_rule [kw "parameter_in"; pu ":"; PV FIdent; pu ","; tts]
       (fun b => match b with [BId v; BRep o] => more (option_map KpIn (location_of v)) o | _ => None end);
     Build_rule [kw "name"; pu ":"; PV FExpr; pu ","; tts]
       (fun b => match b with [BToks e; BRep o] => more (option_map KpName (text_of C e)) o | _ => None end);
     Build_rule [kw "description"; pu ":"; PV FExpr; pu ","; tts]
       (fun b => match b with [BToks e; BRep o] => more (option_map KpDescription (text_of C e)) o | _ => None end);
     stop_rule].
  (** macros.rs:369-416.  The first rule expands to [stringity!(..)], which does not exist. *)
  Definition scheme_rules : list (rule (munched scheme_decl)) :=
    [Build_rule [PV FIdent; pu ","; tts] (fun _ => None);
     Build_rule [PG Paren [kw "http"; PV FLit]; pu ":"; PG Brace [tts1]; pu ","; tts]
       (fun b => match b with
                 | [BLit v; BRep p; BRep o] =>
                     match str_lit v, munch_all http_rules (trees p) with
                     | Some n, Some props => more (Some (SdHttp n props)) o
                     | _, _ => None
                     end
                 | _ => None
                 end);
     Build_rule [PG Paren [kw "apiKey"; PV FExpr]; pu ":"; PG Brace [tts1]; pu ","; tts]
       (fun b => match b with
                 | [BToks e; BRep p; BRep o] =>
                     match text_of C e, munch_all key_rules (trees p) with
                     | Some n, Some props => more (Some (SdApiKey n props)) o
                     | _, _ => None
                     end
                 | _ => None
                 end);
     stop_rule].

  (** macros.rs:696-712 *)
  Definition param_prop_rules : list (rule (munched param_prop)) :=
    [Build_rule [kw "description"; pu ":"; PV FExpr; pu ","; tts]
       (fun b => match b with [BToks e; BRep o] => more (option_map PpDescription (text_of C e)) o | _ => None end);
     Build_rule [kw "required"; pu ":"; PV FExpr; pu ","; tts]
       (fun b => match b with [BToks e; BRep o] => more (option_map PpRequired (bool_of C e)) o | _ => None end);
     Build_rule [kw "deprecated"; pu ":"; PV FExpr; pu ","; tts]
       (fun b => match b with [BToks e; BRep o] => more (option_map PpDeprecated (bool_of C e)) o | _ => None end);
     Build_rule [kw "schema"; pu ":"; PV FPath; pu ","; tts]
       (fun b => match b with [BToks p; BRep o] => more (option_map PpSchema (type_of C p)) o | _ => None end);
     stop_rule].
  (** macros.rs:639-693 *)
  Definition param_rules : list (rule (munched param_decl)) :=
    [Build_rule [PG Paren [kw "header"; PV FExpr]; pu ":"; PG Brace [tts]; pu ","; tts]
       (fun b => match b with
                 | [BToks e; BRep p; BRep o] =>
                     match text_of C e, munch_all param_prop_rules (trees p) with
                     | Some n, Some props => more (Some (PdHeader n props)) o
                     | _, _ => None
                     end
                 | _ => None
                 end);
     Build_rule [PG Paren [kw "header"; PV FExpr]; pu ","; tts]
       (fun b => match b with [BToks e; BRep o] => more (option_map (fun n => PdHeader n []) (text_of C e)) o | _ => None end);
     Build_rule [PG Paren [kw "query"; PV FIdent; pu ":"; PV FPath]; pu ":"; PG Brace [tts]; pu ","; tts]
       (fun b => match b with
                 | [BId n; BToks t; BRep p; BRep o] =>
                     match type_of C t, munch_all param_prop_rules (trees p) with
                     | Some t, Some props => more (Some (PdQuery n t props)) o
                     | _, _ => None
                     end
                 | _ => None
                 end);
     Build_rule [PG Paren [kw "query"; PV FIdent; pu ":"; PV FPath]; pu ","; tts]
       (fun b => match b with [BId n; BToks t; BRep o] => more (option_map (fun t => PdQuery n t []) (type_of C t)) o | _ => None end);
     stop_rule].

  (** macros.rs:595-607 *)
  Definition body_rules : list (rule (munched body_prop)) :=
    [Build_rule [kw "schema"; pu ":"; PV FPath; pu ","; tts]
       (fun b => match b with [BToks p; BRep o] => more (option_map BpSchema (type_of C p)) o | _ => None end);
     Build_rule [kw "description"; pu ":"; PV FLit; pu ","; tts]
       (fun b => match b with [BLit v; BRep o] => more (option_map BpDescription (str_lit v)) o | _ => None end);
     Build_rule [kw "required"; pu ":"; PV FLit; pu ","; tts]
       (fun b => match b with [BLit v; BRep o] => more (option_map BpRequired (bool_lit v)) o | _ => None end);
     stop_rule].

  (** macros.rs:587-592 *)
  Definition role (b : list binding) : option str := match b with [BLit v] => str_lit v | _ => None end.
  Definition security_roles (l : list (list binding)) : option (list str) :=
    match l with [] => Some [] | [[BRep rs]] => all_some role rs | _ => None end.
  Definition security_name : list tree -> option (list str -> security_item) :=
    match_rules
      [Build_rule [PV FLit] (fun b => match b with [BLit v] => option_map SiLit (str_lit v) | _ => None end);
       Build_rule [PV FIdent] (fun b => match b with [BId n] => option_map (SiIdent n) (scheme_var C n) | _ => None end)].
  Definition security_of (b : list binding) : option security_item :=
    match b with
    | [BToks t; BRep r] => match security_name t, security_roles r with Some f, Some rs => Some (f rs) | _, _ => None end
    | _ => None
    end.
  (** macros.rs:576-584 *)
  Definition security_rules : list (rule (munched (list security_item))) :=
    [Build_rule [PR [PV FTt; opt [PG Bracket [sep_by_commas [PV FLit]]]] (Some (tk_pu "&&")) RPlus; pu ","; tts]
       (fun b => match b with [BRep l; BRep o] => more (all_some security_of l) o | _ => None end);
     Build_rule [PR [pu ","] None RStar] (fun _ => Some Stop)].

  (** the code of a response is a [u16] *)
  Definition code_lit (v : lval) : option N := match v with VInt n => if (n <? 65536)%N then Some n else None | _ => None end.
  Definition response (v : lval) (d : list (list binding)) (s : option response_schema) : option (op_prop callback_decl) :=
    match code_lit v, opt_str_lit d, s with
    | Some c, Some desc, Some s => Some (OpResponse c desc s)
    | _, _, _ => None
    end.
  Definition response_head : list pat := [PV FLit; opt [PG Paren [PV FLit]]; pu ":"].

  Section Nested.
    (** the paths of a callback (625-637) *)
    Variable callback_paths : list tree -> option (list path_decl).
    (** macros.rs:609-623.  In the first rule [$other] is used instead of [$operations], which is left unread. *)
    Definition callback_rules : list (rule (munched callback_decl)) :=
      [Build_rule [PV FLit; pu ":"; PG Brace [tts]; pu ","; tts]
         (fun b => match b with
                   | [BLit v; BRep _; BRep o] =>
                       match str_lit v, callback_paths (trees o ++ [COMMA]) with
                       | Some n, Some ps => more (Some (CbLit n ps)) o
                       | _, _ => None
                       end
                   | _ => None
                   end);
       Build_rule [PV FIdent; pu ":"; PG Brace [tts]; pu ","; tts]
         (fun b => match b with
                   | [BId n; BRep p; BRep o] =>
                       match callback_paths (trees p ++ [COMMA]) with
                       | Some ps => more (Some (CbIdent n ps)) o
                       | _ => None
                       end
                   | _ => None
                   end);
       stop_rule].

    (** macros.rs:493-573.  545-559 go on with 560 and [None] or a mention of the type in braces. *)
    Definition op_rules : list (rule (munched (op_prop callback_decl))) :=
      [Build_rule [kw "summary"; pu ":"; PV FExpr; pu ","; tts]
         (fun b => match b with [BToks e; BRep o] => more (option_map OpSummary (text_of_ref C e)) o | _ => None end);
       Build_rule [kw "operationId"; pu ":"; PV FExpr; pu ","; tts]
         (fun b => match b with [BToks e; BRep o] => more (option_map OpId (text_of_ref C e)) o | _ => None end);
       Build_rule [kw "description"; pu ":"; PV FExpr; pu ","; tts]
         (fun b => match b with [BToks e; BRep o] => more (option_map OpDescription (text_of_ref C e)) o | _ => None end);
       Build_rule [kw "deprecated"; pu ":"; PV FExpr; pu ","; tts]
         (fun b => match b with [BToks e; BRep o] => more (option_map OpDeprecated (bool_of C e)) o | _ => None end);
       Build_rule [kw "tags"; pu ":"; PG Brace [sep_by_commas [PV FIdent]; opt_comma]; pu ","; tts]
         (fun b => match b with
                   | [BRep l; BRep _; BRep o] =>
                       more (option_map OpTags (all_some (fun t => match t with [BId s] => Some s | _ => None end) l)) o
                   | _ => None
                   end);
       Build_rule [kw "parameters"; pu ":"; PG Brace [tts]; pu ","; tts]
         (fun b => match b with [BRep p; BRep o] => more (option_map OpParameters (munch_all param_rules (trees p))) o | _ => None end);
       Build_rule [kw "callbacks"; pu ":"; PG Brace [tts]; pu ","; tts]
         (fun b => match b with
                   | [BRep p; BRep o] => more (option_map (fun l => OpCallbacks l false) (munch_all callback_rules (trees p))) o
                   | _ => None
                   end);
       Build_rule [kw "security"; pu ":"; PG Brace [tts]; pu ","; tts]
         (fun b => match b with [BRep p; BRep o] => more (option_map OpSecurity (munch_all security_rules (trees p))) o | _ => None end);
       Build_rule [kw "body"; pu ":"; PG Brace [tts]; pu ","; tts]
         (fun b => match b with
                   | [BRep p; BRep o] => more (option_map (fun l => OpBody (BodyProps l)) (munch_all body_rules (trees p))) o
                   | _ => None
                   end);
       Build_rule [kw "body"; pu ":"; PV FPath; pu ","; tts]
         (fun b => match b with [BToks p; BRep o] => more (option_map (fun t => OpBody (BodyType t)) (type_of C p)) o | _ => None end);
       Build_rule (response_head ++ [kw "None"; pu ","; tts])
         (fun b => match b with [BLit v; BRep d; BRep o] => more (response v d (Some RsNone)) o | _ => None end);
       Build_rule (response_head ++ [PG Paren []; pu ","; tts])
         (fun b => match b with [BLit v; BRep d; BRep o] => more (response v d (Some RsUnit)) o | _ => None end);
       Build_rule (response_head ++ [PV FPath; pu ","; tts])
         (fun b => match b with [BLit v; BRep d; BToks p; BRep o] => more (response v d (option_map RsType (type_of C p))) o | _ => None end);
       Build_rule (response_head ++ [PG Brace [tts1]; pu ","; tts])
         (fun b => match b with
                   | [BLit v; BRep d; BRep s; BRep o] => more (response v d (option_map RsRaw (schema_of C (trees s)))) o
                   | _ => None
                   end);
       stop_rule].

    (** models.rs:230-245: the fields of [PathValue] that hold an optional text *)
    Definition path_field (k s : str) : option (path_prop callback_decl) :=
      if str_eqb k (u "summary") then Some (PvSummary s)
      else if str_eqb k (u "description") then Some (PvDescription s) else None.
    (** macros.rs:475-490 *)
    Definition path_rules : list (rule (munched (path_prop callback_decl))) :=
      [Build_rule [PV FIdent; pu ":"; PV FLit; pu ","; tts]
         (fun b => match b with
                   | [BId k; BLit v; BRep o] => more (match str_lit v with Some s => path_field k s | None => None end) o
                   | _ => None
                   end);
       Build_rule [kw "parameters"; pu ":"; PG Brace [tts]; pu ","; tts]
         (fun b => match b with [BRep p; BRep o] => more (option_map PvParameters (munch_all param_rules (trees p))) o | _ => None end);
       Build_rule [PV FIdent; pu ":"; PG Brace [tts]; pu ","; tts]
         (fun b => match b with
                   | [BId k; BRep p; BRep o] =>
                       match method_of k, munch_all op_rules (trees p) with
                       | Some m, Some l => more (Some (PvMethod m l)) o
                       | _, _ => None
                       end
                   | _ => None
                   end);
       stop_rule].

    (** 463-472: the token trees of the url *)
    Definition url_token (t : tree) : utok :=
      match t with TkPu s => if str_eqb s (u "/") then USlash else UTok t | _ => UTok t end.
    Definition path_item (b : list binding) : option path_decl :=
      match b with
      | [BRep url; BRep p] => option_map (Build_path_decl_of (map url_token (trees url))) (munch_all path_rules (trees p))
      | _ => None
      end.
    (** macros.rs:449-461, 625-637 *)
    Definition paths_rules : list (rule (list path_decl)) :=
      [Build_rule [sep_by_commas [PG Paren [tts1]; pu ":"; PG Brace [tts]]; opt_comma]
         (fun b => match b with [BRep l; BRep _] => all_some path_item l | _ => None end)].
  End Nested.
  (** callbacks within callbacks, to any depth; the number is more than the depth of the tokens *)
  Fixpoint parse_paths (n : nat) (ts : list tree) : option (list path_decl) :=
    match n with O => None | S n' => match_rules (paths_rules (parse_paths n')) ts end.

  (** macros.rs:340, 352, 359, 369, 449: one section *)
  Definition section (b : list binding) : option api_section :=
    match b with
    | [BId k; BRep p] =>
        let ts := trees p in
        if str_eqb k (u "info") then option_map ScInfo (match_rules info_rules ts)
        else if str_eqb k (u "tags") then option_map ScTags (match_rules tags_rules ts)
        else if str_eqb k (u "servers") then option_map ScServers (match_rules servers_rules ts)
        else if str_eqb k (u "security_schemes") then option_map ScSecurity (munch_all scheme_rules ts)
        else if str_eqb k (u "paths") then option_map ScPaths (parse_paths (S (tokens ts)) ts)
        else None
    | _ => None
    end.
  (** macros.rs:333-337.  [$(..);+] on the right hand side must repeat at least once. *)
  Definition api_rules : list (rule api) :=
    [Build_rule [sep_by_commas [PV FIdent; pu ":"; PG Brace [tts]]; opt_comma]
       (fun b => match b with [BRep []; _] => None | [BRep l; BRep _] => all_some section l | _ => None end)].
  Definition parse_api : list tree -> option api := match_rules api_rules.

  (** ** [describe_type!] *)

  (** [$l.to_string()] *)
  Definition literal_text (v : lval) : option str :=
    match v with
    | VStr s => Some s
    | VBool b => Some (u (if b then "true" else "false"))
    | VInt n => other_text C (TlInt n)
    | VOther t => other_text C (TlOther t)
    | VNeg l => negated C l
    end.
  Definition text_lit (b : list binding) : option str := match b with [BLit v] => literal_text v | _ => None end.
  Definition opt_text (l : list (list binding)) : option (option str) :=
    match l with [] => Some None | [b] => option_map Some (text_lit b) | _ => None end.
  Definition opt_texts (l : list (list binding)) : option (option (list str)) :=
    match l with [] => Some None | [[BRep vs]] => option_map Some (all_some text_lit vs) | _ => None end.
  Definition opt_key (k : string) : pat := opt [kw k; pu ":"; PV FLit].

  Section NestedType.
    Variable nested : list tree -> option describe.
    (** macros.rs:152-162 *)
    Definition value_rules : list (rule describe_value) :=
      [Build_rule [kw "link"; pu "=>"; PV FLit]
         (fun b => match b with [BLit v] => option_map DvLink (str_lit v) | _ => None end);
       Build_rule [kw "link"; pu "=>"; PV FIdent]
         (fun b => match b with [BId n] => option_map DvLink (text_var C n) | _ => None end);
       Build_rule [PV FIdent; pu "=>"; tts]
         (fun b => match b with [BId t; BRep o] => option_map DvInline (nested (TkId t :: tk_pu "=>" :: trees o)) | _ => None end)].
    (** macros.rs:127, 142-150 *)
    Definition required_mark (l : list (list binding)) : option bool :=
      match l with
      | [] => Some false
      | [[BToks [TkId s]]] => if str_eqb s (u "required") then Some true else None
      | _ => None
      end.
    Definition property (b : list binding) : option (str * bool * describe_value) :=
      match b with
      | [BId n; BRep r; BRep t] =>
          match required_mark r, match_rules value_rules (trees t) with
          | Some r, Some v => Some (n, r, v)
          | _, _ => None
          end
      | _ => None
      end.
    (** macros.rs:21-140 *)
    Definition type_rules : list (rule describe) :=
      [Build_rule [kw "raw_model"; pu "=>"; PV FIdent]
         (fun b => match b with [BId n] => option_map DtRawModel (model_var C n) | _ => None end);
       Build_rule [kw "raw_type"; pu "=>"; PG Brace [opt_key "description"; kw "ident"; pu ":"; PV FIdent]]
         (fun b => match b with
                   | [BRep d; BId n] => match opt_text d, data_var C n with Some d, Some t => Some (DtRawType d t) | _, _ => None end
                   | _ => None
                   end);
       Build_rule [kw "string"; pu "=>"; PG Brace [opt_key "description"; opt_key "format"; opt_key "example";
                     opt [kw "variants"; pu ":"; PG Bracket [sep_by_commas [PV FLit]]]]]
         (fun b => match b with
                   | [BRep d; BRep f; BRep e; BRep v] =>
                       match opt_text d, opt_text f, opt_text e, opt_texts v with
                       | Some d, Some f, Some e, Some v => Some (DtString d f e v)
                       | _, _, _, _ => None
                       end
                   | _ => None
                   end);
       Build_rule [kw "number"; pu "=>"; PG Brace [opt_key "description"; opt_key "format"; opt_key "example"]]
         (fun b => match b with
                   | [BRep d; BRep f; BRep e] =>
                       match opt_text d, opt_text f, opt_text e with Some d, Some f, Some e => Some (DtNumber d f e) | _, _, _ => None end
                   | _ => None
                   end);
       Build_rule [kw "integer"; pu "=>"; PG Brace [opt_key "description"; opt_key "format"; opt_key "example"]]
         (fun b => match b with
                   | [BRep d; BRep f; BRep e] =>
                       match opt_text d, opt_text f, opt_text e with Some d, Some f, Some e => Some (DtInteger d f e) | _, _, _ => None end
                   | _ => None
                   end);
       Build_rule [kw "boolean"; pu "=>"; PG Brace [opt_key "description"]]
         (fun b => match b with [BRep d] => option_map DtBoolean (opt_text d) | _ => None end);
       Build_rule [kw "array"; pu "=>"; PG Brace [opt_key "description"; kw "items"; pu ":"; PG Paren [tts]]]
         (fun b => match b with
                   | [BRep d; BRep t] =>
                       match opt_text d, match_rules value_rules (trees t) with Some d, Some v => Some (DtArray d v) | _, _ => None end
                   | _ => None
                   end);
       Build_rule [kw "object"; pu "=>"; PG Brace [opt_key "description"; kw "properties"; pu ":"; PG Brace
                     [PR [PV FIdent; opt [PG Bracket [PV FTt]]; pu ":"; PG Paren [tts]] None RStar]]]
         (fun b => match b with
                   | [BRep d; BRep l] => match opt_text d, all_some property l with Some d, Some l => Some (DtObject d l) | _, _ => None end
                   | _ => None
                   end)].
  End NestedType.
  Fixpoint parse_type_n (n : nat) (ts : list tree) : option describe :=
    match n with O => None | S n' => match_rules (type_rules (parse_type_n n')) ts end.
  Definition parse_type (ts : list tree) : option describe := parse_type_n (S (tokens ts)) ts.
End Syntax.

(** ** The macros *)
Definition describe_type_macro (C : caller) (ts : list tree) : option model := option_map describe_type (parse_type C ts).
Definition describe_api_macro (C : caller) (E : env) (fuel : nat) (reason : N -> option str) (ts : list tree) : outcome opg :=
  match parse_api C ts with Some a => describe_api E fuel reason (url_segment C) a | None => Rejected end.
