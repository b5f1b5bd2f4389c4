(** What a described type says in which the caller's variables are named. *)
From Verif Require Import Tokens SyntaxSpec Expand ExpandType.
Local Open Scope string_scope. Local Open Scope list_scope.

(** the variables of the caller *)
Definition variables := list (str * tval).
Fixpoint value_of (l : variables) (v : str) : option tval :=
  match l with [] => None | (w, x) :: l' => if str_eqb v w then Some x else value_of l' v end.
(** they as the code sees them, none moved yet *)
Definition caller_frame (l : variables) : tframe := map (fun b => (Id (fst b) [], Has (snd b))) l.

(** the description that is meant: variables stand for their values, which must be of the right type *)
Inductive means (vars : str -> option tval) : xdescribe -> describe -> Prop :=
| mn_raw_model v m : vars v = Some (VModel m) -> means vars (XtRawModel v) (DtRawModel m)
| mn_raw_type d v data : vars v = Some (VData data) -> means vars (XtRawType d v) (DtRawType d data)
| mn_string d f e vs : means vars (XtString d f e vs) (DtString d f e vs)
| mn_number d f e : means vars (XtNumber d f e) (DtNumber d f e)
| mn_integer d f e : means vars (XtInteger d f e) (DtInteger d f e)
| mn_boolean d : means vars (XtBoolean d) (DtBoolean d)
| mn_array d i i' : means_value vars i i' -> means vars (XtArray d i) (DtArray d i')
| mn_object d l l' : means_properties vars l l' -> means vars (XtObject d l) (DtObject d l')
with means_properties (vars : str -> option tval) : list (str * bool * xvalue) -> list (str * bool * describe_value) -> Prop :=
| mp_nil : means_properties vars [] []
| mp_cons k req v v' l l' : means_value vars v v' -> means_properties vars l l' -> means_properties vars ((k, req, v) :: l) ((k, req, v') :: l')
with means_value (vars : str -> option tval) : xvalue -> describe_value -> Prop :=
| mv_link s : means_value vars (XvLink s) (DvLink s)
| mv_var v s : vars v = Some (VText s) -> means_value vars (XvVar v) (DvLink s)
| mv_inline d d' : means vars d d' -> means_value vars (XvInline d) (DvInline d').

(** the variables used by value, in order, as often as they are used: models and data (links are borrowed) *)
Fixpoint moved (d : xdescribe) : list str :=
  match d with
  | XtRawModel v | XtRawType _ v => [v]
  | XtArray _ i => moved_value i
  | XtObject _ l => flat_map (fun e => moved_value (snd e)) l
  | _ => []
  end
with moved_value (v : xvalue) : list str := match v with XvInline d => moved d | _ => [] end.

(** The grammar of [describe_type!] once more ([type_form], SyntaxSpec.v), with the names of the variables where that one
    has their values. *)
Section Written.
  Variable C : caller.
  Notation literal := (literal C).
  Inductive written : list tree -> xdescribe -> Prop :=
  | wt_raw_model v : a_name v -> written [tk_id "raw_model"; ARROW; TkId v] (XtRawModel v)
  | wt_raw_type ds d v : optional "description" literal ds d -> a_name v ->
      written (form "raw_type" (ds ++ [tk_id "ident"; COLON_TK; TkId v])) (XtRawType d v)
  | wt_string ds d fs f es e vs v : optional "description" literal ds d -> optional "format" literal fs f ->
      optional "example" literal es e -> optional "variants" (variants_form C) vs v ->
      written (form "string" (ds ++ fs ++ es ++ vs)) (XtString d f e v)
  | wt_number ds d fs f es e : optional "description" literal ds d -> optional "format" literal fs f ->
      optional "example" literal es e -> written (form "number" (ds ++ fs ++ es)) (XtNumber d f e)
  | wt_integer ds d fs f es e : optional "description" literal ds d -> optional "format" literal fs f ->
      optional "example" literal es e -> written (form "integer" (ds ++ fs ++ es)) (XtInteger d f e)
  | wt_boolean ds d : optional "description" literal ds d -> written (form "boolean" ds) (XtBoolean d)
  | wt_array ds d vs v : optional "description" literal ds d -> written_value vs v ->
      written (form "array" (ds ++ [tk_id "items"; COLON_TK; TkGr Paren vs])) (XtArray d v)
  | wt_object ds d ps l : optional "description" literal ds d -> many written_property ps l ->
      written (form "object" (ds ++ [tk_id "properties"; COLON_TK; TkGr Brace ps])) (XtObject d l)
  with written_value : list tree -> xvalue -> Prop :=
  | wv_link s : written_value [tk_id "link"; ARROW; TkLit (TlStr s)] (XvLink s)
  | wv_variable v : a_variable v -> written_value [tk_id "link"; ARROW; TkId v] (XvVar v)
  | wv_inline ts d : written ts d -> written_value ts (XvInline d)
  with written_property : list tree -> str * bool * xvalue -> Prop :=
  | wp_optional n vs v : a_name n -> written_value vs v -> written_property [TkId n; COLON_TK; TkGr Paren vs] (n, false, v)
  | wp_required n vs v : a_name n -> written_value vs v ->
      written_property [TkId n; TkGr Bracket [tk_id "required"]; COLON_TK; TkGr Paren vs] (n, true, v).
End Written.

(** the caller of the grammar has these variables *)
Definition has_variables (C : caller) (l : variables) : Prop := forall v,
  (forall m, model_var C v = Some m <-> value_of l v = Some (VModel m)) /\
  (forall d, data_var C v = Some d <-> value_of l v = Some (VData d)) /\
  (forall s, text_var C v = Some s <-> value_of l v = Some (VText s)).
