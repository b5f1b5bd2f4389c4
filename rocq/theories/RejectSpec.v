(** What a schema never accepts. *)
From Coq Require Import List ZArith.
Import ListNotations.
From Verif Require Import Str BMap Attr Ast Schema Gen GenSpec SoundSpec.

(** wherever and whenever the schema of [t] is made, and whatever the components hold, it does not accept [j] *)
Definition rejects (E : env) (t : ty) (j : json) : Prop :=
  forall cx m cx', schema_returns E t cx m cx' -> forall S, ~ valid_model S m j.

(** the variant carries one unnamed field *)
Definition newtype_variant {A} (v : variant_syn A) : Prop := exists f, vs_fields v = FUnnamed [f].
