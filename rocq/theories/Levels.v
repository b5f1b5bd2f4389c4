(** How deeply the calls of [describe_api!] and [describe_type!] (opg/src/macros.rs) nest: rustc gives up on a macro call
    whose depth is above the recursion limit (128 unless the crate says otherwise).  The call the user writes has depth 1,
    and a call in what a call expands to is one deeper.

    Each list of rules of Syntax.v gets a list of weights: how deep the calls go that the right hand side makes for the item
    itself, and how many calls away the one for the rest is.  Other macros ([stringify!], [vec!] and the caller's own), which
    may add to the depth, are left out. *)
From Verif Require Export Syntax.
Local Open Scope string_scope. Local Open Scope list_scope.

Definition weight := (nat * nat)%type.
(** a rule whose result carries its weight *)
Definition weigh {X} (r : rule X) (f : list binding -> weight) : rule (X * weight) :=
  Build_rule (lhs r) (fun b => option_map (fun x => (x, f b)) (rhs r b)).
Fixpoint weigh_all {X} (rs : list (rule X)) (fs : list (list binding -> weight)) : list (rule (X * weight)) :=
  match rs, fs with
  | r :: rs', f :: fs' => weigh r f :: weigh_all rs' fs'
  | _, _ => []
  end.
(** no calls for the item; the rest at once *)
Definition flat : list binding -> weight := fun _ => (0, 1).
Definition all_flat {X} (rs : list (rule X)) : list (list binding -> weight) := map (fun _ => flat) rs.
(** the calls for a group of tokens bound first, second, third *)
Definition below (f : list tree -> nat) (i : nat) (b : list binding) : weight :=
  match nth_error b i with Some (BRep p) => (f (trees p), 1) | _ => (0, 1) end.

Section Levels.
  Variable C : caller.
  (** a call that expands to calls at most [fs] deep *)
  Definition call_levels {X} (rs : list (rule X)) (fs : list (list binding -> weight)) (ts : list tree) : nat :=
    match match_rules C (weigh_all rs fs) ts with Some (_, (k, _)) => S k | None => 1 end.
  (** a call that calls itself with what is left over; [0]: out of fuel, which does not happen *)
  Fixpoint munch_levels (n : nat) {X} (rs : list (rule (munched X))) (fs : list (list binding -> weight)) (ts : list tree) : nat :=
    match n with
    | O => 0
    | S n' =>
        match match_rules C (weigh_all rs fs) ts with
        | Some (More _ rest, (k, h)) => Nat.max (S k) (h + munch_levels n' rs fs rest)
        | _ => 1
        end
    end.
  Definition munch_all_levels {X} (rs : list (rule (munched X))) (fs : list (list binding -> weight)) (ts : list tree) : nat :=
    munch_levels (S (S (length ts))) rs fs (ts ++ [COMMA]).

  (** macros.rs:715-745: a parameter is inserted by another call *)
  Definition segment_levels (ts : list tree) : nat :=
    match url_segment C ts with Some (SegType _ _) | Some (SegNamed _ _) => 2 | _ => 1 end.
  (** macros.rs:463-472 *)
  Fixpoint url_levels (rest current : list tree) : nat :=
    match rest with
    | [] => match current with [] => 1 | _ :: _ => S (segment_levels current) end
    | t :: rest' =>
        match url_token t, current with
        | USlash, _ :: _ => S (Nat.max (segment_levels current) (url_levels rest' []))
        | _, _ => S (url_levels rest' (current ++ [t]))
        end
    end.

  (** macros.rs:340-349, 359-366: one call for each entry *)
  Definition entries_levels (b : list binding) : weight := match b with BRep (_ :: _) :: _ => (1, 1) | _ => (0, 1) end.
  (** macros.rs:369-446 *)
  Definition scheme_weights : list (list binding -> weight) :=
    [flat; below (munch_all_levels (http_rules C) (all_flat (http_rules C))) 1;
     below (munch_all_levels (key_rules C) (all_flat (key_rules C))) 1; flat].
  (** macros.rs:639-712: a parameter without braces makes no call for itself *)
  Definition param_levels : list tree -> nat := munch_all_levels (param_prop_rules C) (all_flat (param_prop_rules C)).
  Definition param_weights : list (list binding -> weight) := [below param_levels 1; flat; below param_levels 2; flat; flat].
  (** macros.rs:576-592 *)
  Definition security_weights : list (list binding -> weight) := [entries_levels; flat].
  Section Nested.
    Variable callback_paths : list tree -> option (list path_decl).
    Variable callback_levels : list tree -> nat.
    (** macros.rs:609-623; [$other] in the first rule *)
    Definition callback_weights : list (list binding -> weight) :=
      [below (fun ts => callback_levels (ts ++ [COMMA])) 2; below (fun ts => callback_levels (ts ++ [COMMA])) 1; flat].
    (** macros.rs:493-573; 545-559 call 560, which calls for the rest *)
    Definition op_weights : list (list binding -> weight) :=
      [flat; flat; flat; flat; flat;
       below (munch_all_levels (param_rules C) param_weights) 0;
       below (munch_all_levels (callback_rules callback_paths) callback_weights) 0;
       below (munch_all_levels (security_rules C) security_weights) 0;
       below (munch_all_levels (body_rules C) (all_flat (body_rules C))) 0;
       flat; fun _ => (0, 2); fun _ => (0, 2); fun _ => (0, 2); flat; flat].
    (** macros.rs:475-490 *)
    Definition path_weights : list (list binding -> weight) :=
      [flat; below (munch_all_levels (param_rules C) param_weights) 0;
       below (munch_all_levels (op_rules C callback_paths) op_weights) 1; flat].
    (** macros.rs:449-461, 625-637: a call for the url and one for the properties of each path *)
    Definition path_item_levels (b : list binding) : nat :=
      match b with
      | [BRep url; BRep p] => Nat.max (url_levels (trees url) []) (munch_all_levels (path_rules C callback_paths) path_weights (trees p))
      | _ => 0
      end.
    Definition paths_weights : list (list binding -> weight) :=
      [fun b => match b with BRep l :: _ => (list_max (map path_item_levels l), 1) | _ => (0, 1) end].
  End Nested.
  Fixpoint paths_levels (n : nat) (ts : list tree) : nat :=
    match n with O => 0 | S n' => call_levels (paths_rules C (parse_paths C n')) (paths_weights (parse_paths C n') (paths_levels n')) ts end.

  (** macros.rs:340, 352, 359, 369, 449 *)
  Definition section_levels (b : list binding) : nat :=
    match b with
    | [BId k; BRep p] =>
        let ts := trees p in
        if str_eqb k (u "info") then call_levels (info_rules C) [entries_levels] ts
        else if str_eqb k (u "tags") then call_levels (tags_rules C) [flat] ts
        else if str_eqb k (u "servers") then call_levels (servers_rules C) [entries_levels] ts
        else if str_eqb k (u "security_schemes") then S (munch_all_levels (scheme_rules C) scheme_weights ts)
        else if str_eqb k (u "paths") then paths_levels (S (tokens ts)) ts
        else 1
    | _ => 0
    end.
  (** macros.rs:333-337 *)
  Definition api_levels (ts : list tree) : nat :=
    call_levels (api_rules C) [fun b => match b with BRep l :: _ => (list_max (map section_levels l), 1) | _ => (0, 1) end] ts.

  (** ** [describe_type!] *)
  Section NestedType.
    Variable nested : list tree -> option describe.
    Variable nested_levels : list tree -> nat.
    (** macros.rs:152-162 *)
    Definition value_weights : list (list binding -> weight) :=
      [flat; flat; fun b => match b with [BId t; BRep o] => (nested_levels (TkId t :: tk_pu "=>" :: trees o), 1) | _ => (0, 1) end].
    Definition value_levels : list tree -> nat := call_levels (value_rules C nested) value_weights.
    (** macros.rs:127, 142-150: [required] is another call *)
    Definition property_levels (b : list binding) : nat :=
      match b with
      | [BId _; BRep [] ; BRep t] => S (value_levels (trees t))
      | [BId _; BRep _ ; BRep t] => S (S (value_levels (trees t)))
      | _ => 0
      end.
    (** macros.rs:21-140 *)
    Definition type_weights : list (list binding -> weight) :=
      [flat; flat; flat; flat; flat; flat; below value_levels 1;
       fun b => match b with [BRep _; BRep l] => (list_max (map property_levels l), 1) | _ => (0, 1) end].
  End NestedType.
  Fixpoint type_levels_n (n : nat) (ts : list tree) : nat :=
    match n with O => 0 | S n' => call_levels (type_rules C (parse_type_n C n')) (type_weights (parse_type_n C n') (type_levels_n n')) ts end.
  Definition type_levels (ts : list tree) : nat := type_levels_n (S (tokens ts)) ts.
End Levels.

(** ** The macros, in a crate with the given recursion limit *)
Definition limited_api_macro (limit : nat) (C : caller) (E : env) (fuel : nat) (reason : N -> option str) (ts : list tree) : outcome opg :=
  if Nat.leb (api_levels C ts) limit then describe_api_macro C E fuel reason ts else Rejected.
Definition limited_type_macro (limit : nat) (C : caller) (ts : list tree) : option model :=
  if Nat.leb (type_levels C ts) limit then describe_type_macro C ts else None.
