(** Histories of calls of the public methods of [Components], and what may be said of them. *)
From Verif Require Import Schema SchemaSpec Gen GenSpec.

(** a call of a user: a mention, a request for a schema (through [OpgModel::get_schema]), a model added by hand, a security scheme *)
Inductive operation :=
| Mentions (t : ty) (inline : bool) (p : params)
| Asks (t : ty)
| Adds (name : str) (m : model)
| Secures (name : str) (s : security_scheme).
Inductive performs (E : env) : operation -> components -> components -> Prop :=
| pf_mention t i p cx r cx' : mention_returns E t i p cx r cx' -> performs E (Mentions t i p) cx cx'
| pf_schema t cx m cx' : schema_returns E t cx m cx' -> performs E (Asks t) cx cx'
| pf_add name m cx : performs E (Adds name m) cx (add_model name m cx)
| pf_security name s cx : performs E (Secures name s) cx (snd (mention_security_scheme name s cx)).
Inductive history (E : env) : list operation -> components -> components -> Prop :=
| hs_nil cx : history E [] cx cx
| hs_cons op ops cx1 cx2 cx3 : performs E op cx1 cx2 -> history E ops cx2 cx3 -> history E (op :: ops) cx1 cx3.

(** the types that a history consults *)
Definition consults (op : operation) : list site :=
  match op with Mentions t i _ => [SMention t i] | Asks t => [SCall t] | _ => [] end.
Definition consulted (ops : list operation) : list site := flat_map consults ops.

(** the first security scheme given for a name *)
Fixpoint first_scheme (name : str) (ops : list operation) : option security_scheme :=
  match ops with
  | [] => None
  | Secures n s :: ops' => if str_eqb name n then Some s else first_scheme name ops'
  | _ :: ops' => first_scheme name ops'
  end.
