(** What the derived [Serialize] impls of models.rs tell a serializer: C76. *)
From Coq Require Import List NArith.
From Verif Require Import Str Schema Gen Doc Ser Serde SerdeSpec SerdeFacts ApiSpec ApiExamples.
Import ListNotations.

(** * C76: serialising a document never fails and tells the serializer the members that Ser.v lists *)

(** [tell_opg] (Serde.v) runs what the attributes of models.rs make of the impls: flattening, internal tags, renaming, skipping.
    It is [None] where serde's own error would be raised ("can only flatten structs and maps", "cannot serialize tagged newtype
    variant"); a serializer that writes JSON fails on keys that are not [json_key]. *)
Theorem C76_document_told : forall d, exists t, tell_opg d = Some t /\ to_value t = ser_opg d /\ json_writable t.
Proof. exact opg_tells. Qed.
Print Assumptions C76_document_told.

Theorem C76_schema_told : forall m, exists t, tell_model m = Some t /\ to_value t = ser_model m /\ json_writable t.
Proof. exact model_tells. Qed.
Print Assumptions C76_schema_told.

(** It is not for free: flattening a text fails, and so does a tagged newtype variant around one. *)
Example C76_can_fail :
  derive_struct Case.RNone [Fld "a" [Flatten] (tell_str (u "x"))] = None /\
  derive_internal "type" Case.RNone "A" (NewtypeVariant (tell_str (u "x"))) = None /\
  ~ json_writable (ToMap [(ToSeq [], ToNone)]).
Proof.
  repeat split; [now vm_compute..|]. intros H. inversion H as [| | | | | | | |l Hl|]. destruct (Hl _ _ (or_introl eq_refl)) as [Hk _]. inversion Hk.
Qed.
(** the document of the repository's test of describe_api! is told, with two paths *)
Example C76_case : exists t, tell_opg test_doc = Some t /\ to_value t = ser_opg test_doc /\
  exists l es, t = ToStruct l /\ In (u "paths", ToMap es) l /\ length es = 2.
Proof.
  eexists. split; [vm_compute; reflexivity|]. split; [vm_compute; reflexivity|]. eexists _, _. split; [reflexivity|]. split; [|].
  - do 4 (try (left; reflexivity); right). left. reflexivity.
  - reflexivity.
Qed.
