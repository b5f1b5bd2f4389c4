(** Documents published before fields were added accept what is written afterwards. *)
From Verif Require Import Attr AttrSpec Ast Derive DeriveSpec Schema SchemaSpec Gen GenSpec Doc Api SerSpec ApiSpec.
From Verif Require Import SoundSpec AddSpec FitsFacts SoundFacts4 SoundFacts5 GrowSpec GrowFacts.
From Coq Require Import ZArith.

Lemma adds pe pp D D1 : adds_fields pe pp D D1 -> forall id, D1 id = D id \/ True /\ data_added pe pp D1 (D id) (D1 id).
Proof. intros [H _] id. right. split; [exact I|apply H]. Qed.
Theorem added_mention_accepts pe pp uni disc D D1 ev E calls cx_end : adds_fields pe pp D D1 ->
  names_unambiguous E (call_sites calls) -> mentions_return E calls cx_new cx_end ->
  forall c cx0 r cx1 j, In c calls -> harmless (mc_params c) ->
  supported_inside pe pp D True (mc_ty c) -> derived_inside pe pp uni D ev E (mc_ty c) ->
  mention_returns E (mc_ty c) (mc_inline c) (mc_params c) cx0 r cx1 ->
  emits pe pp uni disc D1 (mc_ty c) j -> valid (cx_schemas cx_end) r j.
Proof.
  intros Ha Hn Hm c cx0 r cx1 j Hc Hh Hs Hd Hr Hj. apply (meets_valid True).
  exact (mention_meets pe pp uni disc D ev True D1 (adds _ _ _ _ Ha) (proj2 Ha) E calls cx_end Hn Hm c cx0 r cx1 j Hc Hh Hs Hd Hr Hj).
Qed.
Theorem reduced_mention_accepts pe pp uni disc D D1 D2 ev E calls cx_end : adds_fields pe pp D D1 -> grows pe pp D2 D1 ->
  names_unambiguous E (call_sites calls) -> mentions_return E calls cx_new cx_end ->
  forall c cx0 r cx1 t j, In c calls -> harmless (mc_params c) ->
  supported_inside pe pp D True (mc_ty c) -> derived_inside pe pp uni D ev E (mc_ty c) ->
  mention_returns E (mc_ty c) (mc_inline c) (mc_params c) cx0 r cx1 ->
  wider t (mc_ty c) -> emits pe pp uni disc D2 t j -> valid (cx_schemas cx_end) r j.
Proof.
  intros Ha Hg Hn Hm c cx0 r cx1 t j Hc Hh Hs Hd Hr Hw Hj. eapply added_mention_accepts; try eassumption. eapply written_by_the_wider; eassumption.
Qed.
Section Bodies.
  Variable pe pp : str -> bool.
  Variable uni : N -> bool.
  Variable disc : str -> Z.
  Variable D D1 : tid -> derive_input ty.
  Variable ev : str -> str.
  Variable E : env.
  Variable reason : N -> option str.
  Variable seg : list tree -> option segment.
  Variable a : api.
  Variable d : opg.
  Hypothesis Ha : adds_fields pe pp D D1.
  Hypothesis Hd : describes E reason seg a d.
  Hypothesis Hun : forall ts, (forall t, In t ts <-> names_type seg a t) -> names_unambiguous E (map (fun t => SMention t false) ts).

  Lemma added_body_accepts o x : has_operation (og_paths d) o -> op_body o = Some x ->
    exists l b t, declares_operation a l /\ op_means E reason (callback_means E reason seg) l o /\ In (OpBody b) l /\ body_type b t /\
      (supported_inside pe pp D True t -> derived_inside pe pp uni D ev E t ->
       forall j, emits pe pp uni disc D1 t j -> valid (cx_schemas (og_components d)) (rb_schema x) j).
  Proof.
    intros Ho Hx. destruct (body_meets pe pp uni disc D ev True D1 (adds _ _ _ _ Ha) (proj2 Ha) E reason seg a d Hd Hun _ _ Ho Hx) as (l & b & t & H1 & H2 & H3 & H4 & H5).
    exists l, b, t. repeat (split; [assumption|]). intros Hs Hdv j Hj. apply (meets_valid True). now apply H5.
  Qed.
  Lemma added_response_accepts o c x r : has_operation (og_paths d) o -> bm_get c (op_responses o) = Some x -> rs_schema x = Some r ->
    exists l desc s, declares_operation a l /\ op_means E reason (callback_means E reason seg) l o /\ In (OpResponse c desc s) l /\
      (s = RsRaw (Some r) \/ exists t, response_type s t /\
        (supported_inside pe pp D True t -> derived_inside pe pp uni D ev E t ->
         forall j, emits pe pp uni disc D1 t j -> valid (cx_schemas (og_components d)) r j)).
  Proof.
    intros Ho Hx Hr. destruct (response_meets pe pp uni disc D ev True D1 (adds _ _ _ _ Ha) (proj2 Ha) E reason seg a d Hd Hun _ _ _ _ Ho Hx Hr) as (l & g & s & H1 & H2 & H3 & H4).
    exists l, g, s. repeat (split; [assumption|]). destruct H4 as [H4|(t & H4 & H5)]; [now left|]. right. exists t. split; [exact H4|].
    intros Hs Hdv j Hj. apply (meets_valid True). now apply H5.
  Qed.
End Bodies.
