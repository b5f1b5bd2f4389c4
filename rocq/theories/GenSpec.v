(** Specification vocabulary for schema generation. *)
From Verif Require Import Schema SchemaSpec Gen.

(** ** Results of generation, without fuel *)

(** [<t>::get_schema(cx)] returns [m], leaving [cx'] *)
Definition schema_returns (E : env) (t : ty) (cx : components) (m : model) (cx' : components) : Prop :=
  exists fuel, get_schema E fuel t cx = Ok (m, cx').

(** it never returns *)
Definition schema_diverges (E : env) (t : ty) (cx : components) : Prop :=
  forall fuel, get_schema E fuel t cx = Fuel.

(** [cx.mention_schema::<t>(inline, p)] returns [r], leaving [cx'] *)
Definition mention_returns (E : env) (t : ty) (inline : bool) (p : params) (cx : components)
  (r : model_ref) (cx' : components) : Prop :=
  exists fuel, mention E fuel t inline p cx = Ok (r, cx').

(** ** Which types a type's description refers to

    A site is a place in a schema's construction where another type is consulted: [SMention t i]
    is a mention (with inlining requested or not), [SCall t] a use of [t]'s schema in place. *)
Inductive site := SMention (t : ty) (inline : bool) | SCall (t : ty).

Definition site_ty (s : site) : ty := match s with SMention t _ | SCall t => t end.

Fixpoint sites_r (c : rcode) : list site :=
  match c with
  | RcAny => []
  | RcInline c' => sites_m c'
  | RcMention t i _ => [SMention t i]
  | RcTagged c' _ _ _ _ => sites_m c'
  end
with sites_m (c : mcode) : list site :=
  match c with
  | McSchemaWith t _ => [SCall t]
  | McModel _ d => sites_d d
  end
with sites_d (c : dcode) : list site :=
  match c with
  | DcOneOf l => flat_map sites_r l
  | DcSingle _ t => sites_t t
  end
with sites_t (c : tcode) : list site :=
  match c with
  | TcConst _ => []
  | TcArray r => sites_r r
  | TcObject l => flat_map (fun s => sites_r (snd (fst s))) l
  | TcDict r => sites_r r
  end.

(** the sites of a type's own schema *)
Definition sites_of (E : env) (t : ty) : list site :=
  match t with
  | TPrim _ => []
  | TWrap _ t' | TOption t' => [SCall t']
  | TTuple ts => map (fun t' => SMention t' false) ts
  | TSeq _ t' | TDict _ t' => [SMention t' false]
  | TNamed id => sites_m (td_body (E id))
  end.

(** [t]'s description directly refers to [t'] *)
Definition refers_to (E : env) (t t' : ty) : Prop := exists s, In s (sites_of E t) /\ site_ty s = t'.

(** [t]'s description refers to [t'] in one or more steps *)
Inductive contains (E : env) (t : ty) : ty -> Prop :=
| cont_one t' : refers_to E t t' -> contains E t t'
| cont_more t1 t' : refers_to E t t1 -> contains E t1 t' -> contains E t t'.

(** [t] is recursive, or contains a recursive type *)
Definition recursive (E : env) (t : ty) : Prop :=
  contains E t t \/ exists t', contains E t t' /\ contains E t' t'.

(** the sites visited, directly or indirectly, from a list of sites *)
Inductive visited (E : env) (roots : list site) : site -> Prop :=
| vis_root s : In s roots -> visited E roots s
| vis_step s s' : visited E roots s -> In s' (sites_of E (site_ty s)) -> visited E roots s'.

(** the types that are mentioned by link *)
Definition linked (E : env) (roots : list site) (t : ty) : Prop :=
  visited E roots (SMention t false) /\ type_name E t <> None.

(** the nominal type a type stands for, and whether through an [Option] *)
Fixpoint nominal (t : ty) : option (bool * tid) :=
  match t with
  | TWrap _ t' => nominal t'
  | TOption t' => match nominal t' with Some (_, id) => Some (true, id) | None => None end
  | TNamed id => Some (false, id)
  | _ => None
  end.
Definition owner (t : ty) : option tid := match nominal t with Some (_, id) => Some id | None => None end.

(** No component name is shared: types linked under one name stand for one nominal type ... *)
Definition names_unique (E : env) (roots : list site) : Prop :=
  forall t1 t2, linked E roots t1 -> linked E roots t2 -> type_name E t1 = type_name E t2 -> owner t1 = owner t2.
(** ... and all or none of them are optional. *)
Definition names_unambiguous (E : env) (roots : list site) : Prop :=
  forall t1 t2, linked E roots t1 -> linked E roots t2 -> type_name E t1 = type_name E t2 -> nominal t1 = nominal t2.

(** ** Histories *)

(** a mention by a user of [Components], with its parameters *)
Record mention_call := { mc_ty : ty; mc_inline : bool; mc_params : params }.

Fixpoint mention_all (E : env) (fuel : nat) (l : list mention_call) (cx : components) : res components :=
  match l with
  | [] => Ok cx
  | c :: l' =>
      do (_, cx1) <- mention E fuel (mc_ty c) (mc_inline c) (mc_params c) cx;
      mention_all E fuel l' cx1
  end.
Definition mentions_return (E : env) (l : list mention_call) (cx cx' : components) : Prop :=
  exists fuel, mention_all E fuel l cx = Ok cx'.

Definition call_sites (l : list mention_call) : list site :=
  map (fun c => SMention (mc_ty c) (mc_inline c)) l.

(** any sequence of calls of the public mutators of [Components] *)
Inductive cx_step (E : env) : components -> components -> Prop :=
| step_mention t i p cx r cx' : mention_returns E t i p cx r cx' -> cx_step E cx cx'
| step_schema t cx m cx' : schema_returns E t cx m cx' -> cx_step E cx cx'
| step_add name m cx : cx_step E cx (add_model name m cx)
| step_security name s cx : cx_step E cx (snd (mention_security_scheme name s cx)).
Inductive cx_steps (E : env) : components -> components -> Prop :=
| steps_nil cx : cx_steps E cx cx
| steps_cons cx1 cx2 cx3 : cx_step E cx1 cx2 -> cx_steps E cx2 cx3 -> cx_steps E cx1 cx3.

(** what [BTreeMap]s guarantee *)
Definition wf_cx (cx : components) : Prop := bm_sorted (cx_schemas cx) /\ bm_sorted (cx_security cx).

(** the registered schemas of [cx] are those of [cx'] too *)
Definition extends (cx cx' : components) : Prop :=
  (forall k m, bm_get k (cx_schemas cx) = Some m -> bm_get k (cx_schemas cx') = Some m) /\
  (forall k s, bm_get k (cx_security cx) = Some s -> bm_get k (cx_security cx') = Some s).

Definition registered (cx : components) (n : str) : Prop := bm_get n (cx_schemas cx) <> None.
