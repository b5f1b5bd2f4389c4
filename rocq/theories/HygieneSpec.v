(** The words of C73: where, in the code that the derive writes, the expressions of attributes stand, and which names of
    that code they can see there. *)
From Verif Require Export Quote.
Local Open Scope string_scope. Local Open Scope list_scope.

(** how the code writes its variables *)
Definition text_of (x : var) : str :=
  match x with
  | V_cx => u "cx" | V_self => u "self" | V_inline => u "inline" | V_params => u "params"
  | V_properties => u "properties" | V_required => u "required" | V_model => u "model"
  | V_additional_object => u "additional_object" | V_item_model => u "item_model"
  | V_reference => u "reference" | V_structure => u "structure" | V_link => u "link"
  end.

(** the names that a list of statements leaves bound, the last first *)
Fixpoint bound_by (ss : list stmt) : list var :=
  match ss with [] => [] | SLet x _ :: ss' => bound_by ss' ++ [x] | _ :: ss' => bound_by ss' end.
Definition pattern_binds (p : pat) : list var := match p with P_wild => [] | P_ctor _ x => [x] end.

(** [stands scope e src seen]: if the names [scope] are bound around [e], then the user's expression [src] stands somewhere
    in [e], where the names [seen] are bound.  [quote!] gives its identifiers the hygiene of the call site (the crate
    builds every [Span] by [call_site]): such names are the same as the user's. *)
Inductive stands : list var -> expr -> str -> list var -> Prop :=
| at_user sc s : stands sc (EUser s) s sc
| at_ctor sc c l e s v : In e l -> stands sc e s v -> stands sc (ECtor c l) s v
| at_struct sc t fs rest f e s v : In (f, e) fs -> stands sc e s v -> stands sc (EStruct t fs rest) s v
| at_fun sc f l e s v : In e l -> stands sc e s v -> stands sc (EFun f l) s v
| at_meth_self sc e m l s v : stands sc e s v -> stands sc (EMeth e m l) s v
| at_meth_arg sc r m l e s v : In e l -> stands sc e s v -> stands sc (EMeth r m l) s v
| at_mention_self sc e t l s v : stands sc e s v -> stands sc (EMention e t l) s v
| at_mention_arg sc r t l e s v : In e l -> stands sc e s v -> stands sc (EMention r t l) s v
| at_trait sc t f l e s v : In e l -> stands sc e s v -> stands sc (ETrait t f l) s v
| at_vec sc l e s v : In e l -> stands sc e s v -> stands sc (EVec l) s v
| at_tuple sc l e s v : In e l -> stands sc e s v -> stands sc (ETuple l) s v
| at_format sc fmt l e s v : In e l -> stands sc e s v -> stands sc (EFormat fmt l) s v
| at_ref sc e s v : stands sc e s v -> stands sc (ERef e) s v
| at_paren sc e s v : stands sc e s v -> stands sc (EParen e) s v
| at_not sc e s v : stands sc e s v -> stands sc (ENot e) s v
| at_stmt sc ss1 st ss2 e s v : stands_stmt (bound_by ss1 ++ sc) st s v -> stands sc (EBlock (ss1 ++ st :: ss2) e) s v
| at_end sc ss e s v : stands (bound_by ss ++ sc) e s v -> stands sc (EBlock ss e) s v
| at_if_cond sc c e s v : stands sc c s v -> stands sc (EIf c e) s v
| at_if sc c e s v : stands sc e s v -> stands sc (EIf c e) s v
| at_if_let_cond sc p c e s v : stands sc c s v -> stands sc (EIfLet p c e) s v
| at_if_let sc p c e s v : stands (pattern_binds p ++ sc) e s v -> stands sc (EIfLet p c e) s v
| at_match sc c p g e1 e2 s v : stands sc c s v -> stands sc (EMatch c p g e1 e2) s v
| at_guard sc c p g e1 e2 s v : stands (pattern_binds p ++ sc) g s v -> stands sc (EMatch c p (Some g) e1 e2) s v
| at_arm sc c p g e1 e2 s v : stands (pattern_binds p ++ sc) e1 s v -> stands sc (EMatch c p g e1 e2) s v
| at_other sc c p g e1 e2 s v : stands sc e2 s v -> stands sc (EMatch c p g e1 e2) s v
with stands_stmt : list var -> stmt -> str -> list var -> Prop :=
| at_let sc x e s v : stands sc e s v -> stands_stmt sc (SLet x e) s v
| at_let_under sc e s v : stands sc e s v -> stands_stmt sc (SLetUnder e) s v
| at_expr sc e s v : stands sc e s v -> stands_stmt sc (SExpr e) s v.

(** in a function: its parameters are bound around its body *)
Definition parameters (f : fn_code) : list var := flat_map (fun p => match p with Some x => [x] | None => [] end) (fn_params f).
Definition stands_in (f : fn_code) (src : str) (seen : list var) : Prop := stands (parameters f) (fn_body f) src seen.
(** in an impl *)
Definition stands_in_impl (c : impl_code) (src : str) (seen : list var) : Prop :=
  stands_in (ic_get_schema c) src seen \/ stands_in (ic_type_name c) src seen \/
  exists f, ic_select c = Some f /\ stands_in f src seen.

(** the text [src] has the word [w] in it *)
Definition has_in_it (src w : str) : Prop := exists a b, src = a ++ w ++ b.
(** a name of the written code is the user's name in [src] *)
Definition captured (src : str) (seen : list var) : Prop := exists x, In x seen /\ has_in_it src (text_of x).

(** identifiers: a name is written plainly, or with [r#] *)
Definition hash : N := 35.
Definition spells (ident name : str) : Prop := ~ In hash name /\ (ident = name \/ ident = u "r#" ++ name).
