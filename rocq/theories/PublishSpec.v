(** What publishing an API description means, from its source to its readers. *)
From Coq Require Import List.
From Verif Require Import Schema Gen GenSpec Doc Ser SerSpec Api ApiSpec Match Syntax SyntaxSpec ReadSpec Serde.

Section Publish.
  Variable C : caller.
  Variable E : env.
  Variable reason : N -> option str.
  (** The tokens [ts] between the braces of describe_api! compile, the code returns, and serialising the document tells a serializer [t]. *)
  Definition publishes (ts : list tree) (t : told) : Prop :=
    exists fuel d, describe_api_macro C E fuel reason ts = Done d /\ tell_opg d = Some t.
  (** No segment of a url template has slashes or braces in it; schemas written by hand have no two properties of one name. *)
  Definition plain_source (ts : list tree) : Prop := forall a, invocation C ts a ->
    (forall r, raw_response a r -> wf_ref r) /\
    (forall pd g s, declares_path a pd -> In g (split_url (pd_url pd)) -> url_segment C g = Some s -> plain_segment s).
  (** No two types that the source names, or that are mentioned by those, share a component name. *)
  Definition own_names (ts : list tree) : Prop := forall a, invocation C ts a ->
    forall l, (forall t, In t l <-> names_type (url_segment C) a t) -> names_unambiguous E (map (fun t => SMention t false) l).
End Publish.
