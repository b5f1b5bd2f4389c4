(** Which types have schemas that OpenAPI accepts: in terms of generated code, and of the sources. *)
From Verif Require Import Attr AttrSpec Ast Derive DeriveSpec Schema Gen GenSpec SoundSpec.
From Verif Require Export OpenApiSpec ApiSpec.

(** ** Generated code *)
(** no empty list of alternatives or of values, no property pushed to [required] twice in one object *)
Fixpoint neat_r (c : rcode) : Prop :=
  match c with
  | RcAny => True
  | RcInline c' => neat_m c'
  | RcMention _ _ p => p_variants p <> Some []
  | RcTagged c' _ _ _ _ => neat_m c'
  end
with neat_m (c : mcode) : Prop :=
  match c with
  | McSchemaWith _ p => p_variants p <> Some []
  | McModel _ d => neat_d d
  end
with neat_d (c : dcode) : Prop :=
  match c with
  | DcOneOf l => l <> [] /\ fold_right (fun r P => neat_r r /\ P) True l
  | DcSingle _ t => neat_t t
  end
with neat_t (c : tcode) : Prop :=
  match c with
  | TcConst (CdString s) => mst_variants s <> Some []
  | TcConst _ => True
  | TcArray r => neat_r r
  | TcObject l => NoDup (map (fun s => fst (fst s)) (filter snd l)) /\ fold_right (fun s P => neat_r (snd (fst s)) /\ P) True l
  | TcDict r => neat_r r
  end.
Definition neat_type (E : env) (t : ty) : Prop :=
  match t with TTuple ts => ts <> [] | TNamed id => neat_m (td_body (E id)) | _ => True end /\
  forall n, type_name E t = Some n -> component_name n.
(** [t], and everything its description refers to *)
Definition neat (E : env) (t : ty) : Prop := forall t', t' = t \/ contains E t t' -> neat_type E t'.

(** ** Sources *)
Section Sources.
  Variable pe pp : str -> bool.
  (** no two fields that must be present have one name *)
  Definition required_once (pos : position) (attrs : list attribute) (fs : list (field_syn ty)) : Prop :=
    forall rule l req, has_rule pe pp pos attrs rule -> serialised_fields pe pp rule 0 fs l -> required_names pe pp l req -> NoDup req.
  Definition variant_describable (rep : representation) (v : variant_syn ty) : Prop :=
    match vs_fields v with
    | FUnit => True
    | FUnnamed fs => fs <> []
    | FNamed fs => match rep with RepAdjacent _ _ => fs <> [] | _ => required_once PVariant (vs_attrs v) fs end
    end.
  (** every object has its own names, and every enum and tuple has something in it *)
  Definition input_filled (i : derive_input ty) : Prop :=
    match di_data i with
    | DaStruct (FNamed fs) => required_once (PContainer DkNamed) (di_attrs i) fs
    | DaStruct (FUnnamed fs) => fs <> []
    | DaStruct FUnit | DaUnion => True
    | DaEnum vs =>
        (exists v, In v vs /\ ~ variant_skipped pe pp v /\ (written_as_int pe pp i vs -> vs_discriminant v <> None)) /\
        forall rep, represents pe pp (di_attrs i) rep ->
          (forall v, In v vs -> ~ variant_skipped pe pp v -> variant_describable rep v) /\
          (forall t c v, rep = RepAdjacent t c -> In v vs -> ~ unit_variant v -> t <> c)
    end.
  Definition input_describable (i : derive_input ty) : Prop :=
    input_filled i /\
    (said pe pp (PContainer (shape (di_data i))) (di_attrs i) SInline \/ component_name (di_ident i)).
  (** every nominal type in the description of [t] is derived from a describable source *)
  Definition describable (uni : N -> bool) (ev : str -> str) (D : tid -> derive_input ty) (E : env) (t : ty) : Prop :=
    (forall id, t = TNamed id \/ contains E t (TNamed id) -> derive pe pp uni ev (D id) = DOk (E id) /\ input_describable (D id)) /\
    ~ (t = TTuple [] \/ contains E t (TTuple [])).
  (** no two fields of one object, required or not, have one name *)
  Definition names_apart (pos : position) (attrs : list attribute) (fs : list (field_syn ty)) : Prop :=
    forall rule l, has_rule pe pp pos attrs rule -> serialised_fields pe pp rule 0 fs l -> NoDup (map fst l).
  Definition fields_apart (i : derive_input ty) : Prop :=
    match di_data i with
    | DaStruct (FNamed fs) => names_apart (PContainer DkNamed) (di_attrs i) fs
    | DaEnum vs => forall v fs, In v vs -> ~ variant_skipped pe pp v -> vs_fields v = FNamed fs -> names_apart PVariant (vs_attrs v) fs
    | _ => True
    end.
  (** derivable, but its schema is not a schema of OpenAPI *)
  Definition misformed (uni : N -> bool) (ev : str -> str) (i : derive_input ty) : Prop := exists td m cx,
    derive pe pp uni ev i = DOk td /\ schema_returns (fun _ => td) (TNamed 0) cx_new m cx /\ ~ is_schema (ser_model m).
End Sources.

(** what calls of [mention_schema], with any parameters but values, leave behind and return is accepted *)
Definition accepted (E : env) (calls : list mention_call) (cx : components) : Prop :=
  (forall n m, In (n, m) (cx_schemas cx) -> component_name n /\ is_schema (ser_model m)) /\
  (forall c cx0 r cx1, In c calls -> mention_returns E (mc_ty c) (mc_inline c) (mc_params c) cx0 r cx1 -> is_schema (ser_ref r)).

(** ** Invocations of describe_api! *)
Definition presentable (a : api) : Prop :=
  api_paths a <> [] /\
  (forall l, declares_operation a l ->
     (exists c desc s, In (OpResponse c desc s) l) /\ forall c desc s, In (OpResponse c desc s) l -> (100 <= c <= 599)%N) /\
  (forall n s, declares_scheme a n s \/ uses_scheme a n s -> component_name n /\ forall k, s = ApiKey k -> ak_in k <> InPath) /\
  (forall r, raw_response a r -> wf_ref r /\ tidy_ref r).

(** ** Invocations in which nothing hides anything *)
(** what has one key is one thing *)
Definition alike {X K} (key : X -> K) (l : list X) : Prop := forall x y, In x l -> In y l -> key x = key y -> x = y.
(** parameters of one name are declared alike, and the [schema] of a parameter is given once, not beside a type *)
Definition params_once (l : list param_decl) : Prop :=
  alike pd_name l /\
  forall q, In q l ->
    match q with
    | PdHeader _ ps => forall t t', In (PpSchema t) ps -> In (PpSchema t') ps -> t = t'
    | PdQuery _ t ps => forall t', In (PpSchema t') ps -> t' = t
    end.
(** no method, parameter, response code, callback, body or scheme is declared in two ways in one place *)
Definition said_once (seg : list tree -> option segment) (a : api) : Prop :=
  (forall pd, declares_path a pd ->
     alike fst (methods_of pd) /\ params_once (path_params_of pd) /\
     forall n t, template_parameter seg pd n t ->
       (forall q, In q (path_params_of pd) -> pd_name q <> n) /\ forall t', template_parameter seg pd n t' -> t = t') /\
  (forall l, declares_operation a l ->
     alike (fun r => fst (fst r)) (responses_of l) /\ params_once (params_of l) /\ alike cd_name (callbacks_of l) /\
     (forall b b', In (OpBody b) l -> In (OpBody b') l -> b = b') /\
     (forall ps t t', In (OpBody (BodyProps ps)) l -> In (BpSchema t) ps -> In (BpSchema t') ps -> t = t')) /\
  (forall n s s', declares_scheme a n s \/ uses_scheme a n s -> declares_scheme a n s' \/ uses_scheme a n s' -> s = s').
