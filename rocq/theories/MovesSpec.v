(** What an invocation of describe_api! does with the variables of the caller (C87). *)
From Coq Require Import List NArith.
From Verif Require Import Str Api Expand Moves.
Import ListNotations.

Section Uses.
  (** what the expressions of the caller do: [uses] inside of them; [alone] says which are only a variable *)
  Variable uses : uexpr -> list use.
  Variable alone : uexpr -> option str.
  Definition by_value (e : uexpr) : list use := uses e ++ match alone e with Some x => [Take x] | None => [] end.
  Definition by_reference (e : uexpr) : list use := uses e ++ match alone e with Some x => [Borrow x] | None => [] end.

  (** Texts are used by reference, except those of operations (which are references: C77) and of servers. *)
  Definition param_prop_uses (p : xparam_prop) : list use :=
    match p with XpDescription e => by_reference e | XpRequired e | XpDeprecated e => by_value e | XpSchema _ => [] end.
  Definition param_uses (d : xparam_decl) : list use :=
    match d with
    | XdHeader n props => flat_map param_prop_uses props ++ by_reference n
    | XdQuery _ _ props => flat_map param_prop_uses props
    end.
  Definition security_uses (i : xsecurity_item) : list use := match i with XiLit _ _ => [] | XiIdent n _ => [Borrow n] end.
  Section Nested.
    Variable callback_uses : xcallback_decl -> list use.
    (** nothing in a callback named by a literal is used, and nothing may follow it *)
    Fixpoint callbacks_uses (l : list xcallback_decl) : list use :=
      match l with [] => [] | XcLit _ _ :: _ => [] | c :: l' => callback_uses c ++ callbacks_uses l' end.
    Definition op_prop_uses (p : xop_prop xcallback_decl) : list use :=
      match p with
      | XoSummary e | XoId e | XoDescription e | XoDeprecated e => by_value e
      | XoTags _ | XoBody _ => []
      | XoParameters l => flat_map param_uses l
      | XoCallbacks l _ => callbacks_uses l
      | XoSecurity l => flat_map (flat_map security_uses) l
      | XoResponse _ _ (XrRaw e) => by_value e
      | XoResponse _ _ _ => []
      end.
    Definition path_prop_uses (p : xpath_prop xcallback_decl) : list use :=
      match p with
      | XvSummary _ | XvDescription _ => []
      | XvParameters l => flat_map param_uses l
      | XvMethod _ l => flat_map op_prop_uses l
      end.
    Definition path_uses (d : xpath_decl) : list use := flat_map path_prop_uses (xd_props d).
  End Nested.
  Fixpoint callback_uses (c : xcallback_decl) : list use :=
    match c with XcLit _ _ => [] | XcIdent _ paths => flat_map (path_uses callback_uses) paths end.

  Definition http_prop_uses (p : xhttp_prop) : list use := match p with XhScheme _ => [] | XhFormat e | XhDescription e => by_reference e end.
  Definition key_prop_uses (p : xkey_prop) : list use := match p with XkIn _ => [] | XkName e | XkDescription e => by_reference e end.
  Definition scheme_uses (d : xscheme_decl) : list use :=
    match d with
    | XsHttp _ props => flat_map http_prop_uses props
    | XsApiKey n props => flat_map key_prop_uses props ++ by_reference n
    end.
  Definition server_text_uses (t : xserver_text) : list use := match t with XtLit _ => [] | XtVar x => [Take x] end.
  Definition info_prop_uses (p : xinfo_prop) : list use := match p with XnTitle e | XnVersion e | XnDescription e => by_reference e end.
  Definition section_uses (s : xsection) : list use :=
    match s with
    | XcInfo l => flat_map info_prop_uses l
    | XcTags l => flat_map (fun t => match snd t with Some e => by_reference e | None => [] end) l
    | XcServers l => flat_map (fun t => server_text_uses (fst t) ++ match snd t with Some d => server_text_uses d | None => [] end) l
    | XcSecurity l => flat_map scheme_uses l
    | XcPaths l => flat_map (path_uses callback_uses) l
    end.
  (** all uses of variables of the caller, in order *)
  Definition api_uses : xapi -> list use := flat_map section_uses.

  Definition used (w : use) : str := match w with Borrow x | Take x => x end.
  (** the properties of an [info] differ, and no expression uses a variable with the name of one before it (see C77) *)
  Definition info_tidy (l : list xinfo_prop) : Prop :=
    NoDup (map info_name l) /\
    forall l1 p l2 q w, l = l1 ++ p :: l2 -> In q l1 -> In w (info_prop_uses p) -> used w <> info_name q.
End Uses.

(** The uses [l] one after the other are allowed, where there are the variables [vars] (names, and whether the value can be copied):
    there are such variables, and one whose value was moved away is not used again. *)
Fixpoint copyable (vars : list (str * bool)) (x : str) : option bool :=
  match vars with [] => None | (y, c) :: vars' => if list_eq_dec N.eq_dec x y then Some c else copyable vars' x end.
Definition allowed (vars : list (str * bool)) (l : list use) : Prop :=
  (forall w, In w l -> copyable vars (used w) <> None) /\
  (forall l1 x l2 w, l = l1 ++ Take x :: l2 -> In w l2 -> used w = x -> copyable vars x = Some true).
