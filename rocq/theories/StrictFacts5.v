(** What serde writes is accepted under the strict reading. *)
From Verif Require Import Attr Ast Derive DeriveSpec Schema SchemaSpec Gen GenSpec SoundSpec SoundFacts4 StrictSpec StrictFacts StrictFacts2 StrictFacts4.

Theorem accepted_strictly pe pp uni disc D ev E calls cx_end :
  names_unambiguous E (call_sites calls) -> mentions_return E calls cx_new cx_end ->
  (forall c, In c calls -> told_apart pe pp uni D True ev E (mc_ty c)) ->
  forall c cx0 r cx1 j, In c calls -> harmless (mc_params c) ->
  supported_inside pe pp D False (mc_ty c) -> derived_inside pe pp uni D ev E (mc_ty c) ->
  mention_returns E (mc_ty c) (mc_inline c) (mc_params c) cx0 r cx1 ->
  emits pe pp uni disc D (mc_ty c) j -> accepts (cx_schemas cx_end) r j /\ ~ rejects (cx_schemas cx_end) r j.
Proof.
  intros Hun Hret Ht c cx0 r cx1 j Hc Hh Hs Hd Hm He.
  assert (Ha : accepts (cx_schemas cx_end) r j).
  { apply (accepted_source pe pp uni D ev E calls cx_end Hun Hret Ht c cx0 r cx1 j Hc Hm).
    exact (mention_fits pe pp uni disc D ev E calls cx_end Hun Hret c cx0 r cx1 j Hc Hh Hs Hd Hm He). }
  split; [exact Ha|]. exact (proj1 (strict_consistent _) r j Ha).
Qed.
