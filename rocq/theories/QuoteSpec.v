(** The words of C72: what it is for written code to be run. *)
From Verif Require Export Quote.

Section Words.
  (** what [syn] parses, what characters are upper case, what an example expression's [to_string()] gives *)
  Variable parses_expr parses_path : str -> bool.
  Variable uni_upper : N -> bool.
  Variable eval_expr : str -> str.

  (** the declarations [src] are accepted by the derive, which writes the impls [P] for them *)
  Definition compiled (src : tid -> derive_input ty) (P : tid -> impl_code) : Prop :=
    forall id, derive_code parses_expr parses_path uni_upper (TNamed id) (src id) = CodeOk (P id).
  (** the model says that they are described by [E] *)
  Definition modelled (src : tid -> derive_input ty) (E : env) : Prop :=
    forall id, derive parses_expr parses_path uni_upper eval_expr (src id) = DOk (E id).

  (** the call [c(args)] in the program [P], on the components [cx], comes back with [v] and leaves [cx'] *)
  Definition returns (P : tid -> impl_code) (c : callee) (args : list value) (cx : components) (v : value) (cx' : components) : Prop :=
    exists n, run_call eval_expr (impl_of P) n c args cx = Val (v, cx').
  (** it gets to a point where the program has no meaning: a missing variable, a value of the wrong type, .. *)
  Definition goes_wrong (P : tid -> impl_code) (c : callee) (args : list value) (cx : components) : Prop :=
    exists n, run_call eval_expr (impl_of P) n c args cx = Wrong.
End Words.
