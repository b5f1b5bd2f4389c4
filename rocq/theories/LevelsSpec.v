(** What C81 is about: how many levels of macro calls a piece of syntax takes.

    Lists that a macro takes apart by calling itself cost a level for each item; lists it repeats over ([$( .. )*]) do not. *)
From Verif Require Export ApiSpec.
Local Open Scope string_scope. Local Open Scope list_scope.

(** taken apart item by item: the calls an item makes for itself start from its own level; the rest is [hops] below *)
Definition one_by_one {A} (own hops : A -> nat) :=
  fix go (l : list A) : nat :=
    match l with
    | [] => 1
    | x :: l' => Nat.max (1 + own x) (hops x + go l')
    end.
(** repeated over: as many as the worst *)
Definition side_by_side {A} (own : A -> nat) (l : list A) : nat := list_max (map own l).

(** where the calls for the items of such a list start: below those of all items before *)
Definition hops_before {A} (hops : A -> nat) (l : list A) : nat := list_sum (map hops l).

Definition one_level {A} (_ : A) : nat := 1.
(** a parameter, a security scheme: a level for each property, and one to end; without braces there is none, but that makes no
    difference as the rest is one below *)
Definition param_depth (p : param_decl) : nat := match p with PdHeader _ l | PdQuery _ _ l => length l + 1 end.
Definition params_depth (l : list param_decl) : nat := one_by_one param_depth one_level l.
Definition scheme_depth (s : scheme_decl) : nat := match s with SdHttp _ l => length l + 1 | SdApiKey _ l => length l + 1 end.
(** a response by a type, [()] or [None] is first rewritten into one in braces *)
Definition op_hops {T} (p : op_prop T) : nat :=
  match p with OpResponse _ _ (RsRaw _) => 1 | OpResponse _ _ _ => 2 | _ => 1 end.

Section Depth.
  Variable seg : list tree -> option segment.
  (** a part of a url: a parameter takes another call *)
  Definition part_depth (ts : list tree) : nat := match seg ts with Some (SegType _ _) | Some (SegNamed _ _) => 2 | _ => 1 end.
  (** a url is taken apart token by token; [current] are the tokens since the last slash *)
  Definition tree_of (t : utok) : tree := match t with USlash => tk_pu "/" | UTok t => t end.
  Fixpoint url_depth (url : list utok) (current : list tree) : nat :=
    match url with
    | [] => match current with [] => 1 | _ :: _ => S (part_depth current) end
    | t :: url' =>
        match t, current with
        | USlash, _ :: _ => S (Nat.max (part_depth current) (url_depth url' []))
        | _, _ => S (url_depth url' (current ++ [tree_of t]))
        end
    end.
  Section Nested.
    Variable callbacks : callback_decl -> nat.
    Definition op_depth (p : op_prop callback_decl) : nat :=
      match p with
      | OpParameters l => params_depth l
      | OpCallbacks l _ => one_by_one callbacks one_level l
      | OpSecurity l => length l + 1
      | OpBody (BodyProps l) => length l + 1
      | _ => 0
      end.
    Definition path_prop_depth (p : path_prop callback_decl) : nat :=
      match p with
      | PvParameters l => params_depth l
      | PvMethod _ l => one_by_one op_depth op_hops l
      | _ => 0
      end.
    Definition path_depth (d : path_decl) : nat :=
      Nat.max (url_depth (pd_url d) []) (one_by_one path_prop_depth one_level (pd_props d)).
  End Nested.
  (** the paths of a callback are repeated over *)
  Fixpoint callback_depth (c : callback_decl) : nat :=
    match c with CbLit _ l | CbIdent _ l => 1 + side_by_side (path_depth callback_depth) l end.
  Definition section_depth (s : api_section) : nat :=
    match s with
    | ScInfo [] | ScTags _ | ScServers [] => 1
    | ScInfo _ | ScServers _ => 2
    | ScSecurity l => 1 + one_by_one scheme_depth one_level l
    | ScPaths l => 1 + side_by_side (path_depth callback_depth) l
    end.
  (** the whole invocation *)
  Definition api_depth (a : api) : nat := 1 + side_by_side section_depth a.
End Depth.

(** [describe_type!]: only nesting counts *)
Fixpoint type_depth (d : describe) : nat :=
  match d with
  | DtArray _ v => 1 + value_depth v
  | DtObject _ l => 1 + side_by_side (fun p : str * bool * describe_value => (if snd (fst p) then 2 else 1) + value_depth (snd p)) l
  | _ => 1
  end
with value_depth (v : describe_value) : nat := match v with DvLink _ => 1 | DvInline d => 1 + type_depth d end.
