(** Bodies accepted by the schemas of a described API can be read. *)
From Verif Require Import Attr AttrSpec AttrFacts Ast AstFacts Derive DeriveSpec Schema SchemaSpec SchemaFacts Gen GenSpec
  GenFacts GenFacts2 GenFacts3 GenFacts4 DeriveFacts DeriveFacts2 DeriveFacts5.
From Verif Require Import Api ApiSpec ApiFacts ApiFacts2 ApiFacts3 ApiFacts7 ApiFacts8.
From Verif Require Import SoundSpec SoundFacts SoundFacts2 SoundFacts3 SoundFacts4 SoundFacts5 ReadsSpec ReadsFacts2.
From Coq Require Import Arith Lia ZArith.

Section Api.
  Variable pe pp : str -> bool.
  Variable uni : N -> bool.
  Variable disc : str -> Z.
  Variable D : tid -> derive_input ty.
  Variable ev : str -> str.
  Variable E : env.
  Variable reason : N -> option str.
  Variable seg : list tree -> option segment.
  Variables (a : api) (d : opg).
  Hypothesis Hd : describes E reason seg a d.
  (** no two of the types reachable from the invocation share a name *)
  Hypothesis Hun : forall ts, (forall t, In t ts <-> names_type seg a t) -> names_unambiguous E (map (fun t => SMention t false) ts).
  Notation reads := (reads pe pp uni disc D).
  Notation exact_inside := (exact_inside pe pp D).
  Notation supported_inside := (supported_inside pe pp D False).
  Notation derived_inside := (derived_inside pe pp uni D ev E).
  Notation S := (cx_schemas (og_components d)).

  Lemma refers_readable t r j : names_type seg a t -> refers E t r -> supported_inside t -> exact_inside t -> derived_inside t ->
    distinct_names j -> valid S r j -> reads t j.
  Proof.
    intros Ht (cx0 & cx1 & Hm) Hs Hx Hdv Hn Hj. destruct (components_of_types _ _ _ _ _ Hd) as (ts & cx & Hts & Hr & Hcx). rewrite Hcx in Hj.
    refine (mention_readable pe pp uni disc D ev E (map default_call ts) cx _ Hr (default_call t) cx0 r cx1 j _ eq_refl _ Hs Hx Hdv Hm Hn Hj).
    - rewrite call_sites_default. now apply Hun.
    - now apply in_map, Hts.
    - discriminate.
  Qed.

  Lemma body_readable o x : has_operation (og_paths d) o -> op_body o = Some x ->
    exists l b t, declares_operation a l /\ op_means E reason (callback_means E reason seg) l o /\ In (OpBody b) l /\ body_type b t /\
      (supported_inside t -> exact_inside t -> derived_inside t -> forall j, distinct_names j -> valid S (rb_schema x) j -> reads t j).
  Proof.
    intros Ho Hx. destruct (has_operation_declared _ _ _ _ _ _ (describes_means _ _ _ _ _ Hd) Ho) as (l & Hl & Hm).
    pose proof Hm as Hm'. destruct Hm as (_ & _ & _ & _ & _ & _ & Hb & _). destruct (last_of _ l) as [b|] eqn:El; [|congruence].
    destruct Hb as (x' & Hx' & Hb). assert (x' = x) by congruence. subst x'.
    apply last_of_In in El as (q & Hq & Hs). destruct q; try discriminate. injection Hs as ->.
    assert (exists t, body_type b t /\ refers E t (rb_schema x)) as (t & Ht & Hr).
    { destruct b as [pl|t].
      - destruct Hb as (_ & _ & t & Ht & Hr). exists t. split; [|exact Hr]. apply last_of_In in Ht as (q & Hq' & Hs).
        destruct q; try discriminate. injection Hs as ->. exact Hq'.
      - destruct Hb as (_ & _ & Hr). exists t. split; [reflexivity|exact Hr]. }
    exists l, b, t. split; [exact Hl|]. split; [exact Hm'|]. split; [exact Hq|]. split; [exact Ht|]. intros Hs Hex Hdv j Hn Hj.
    eapply refers_readable; eauto. eapply nt_body; eauto.
  Qed.

  Lemma response_readable o c x r : has_operation (og_paths d) o -> bm_get c (op_responses o) = Some x -> rs_schema x = Some r ->
    exists l desc s, declares_operation a l /\ op_means E reason (callback_means E reason seg) l o /\ In (OpResponse c desc s) l /\
      (s = RsRaw (Some r) \/ exists t, response_type s t /\
        (supported_inside t -> exact_inside t -> derived_inside t -> forall j, distinct_names j -> valid S r j -> reads t j)).
  Proof.
    intros Ho Hx Hr. destruct (has_operation_declared _ _ _ _ _ _ (describes_means _ _ _ _ _ Hd) Ho) as (l & Hl & Hm).
    pose proof (responses_last E reason seg l o c Hm) as Hrl. destruct (last_with response_code c (responses_of l)) as [ [ [c' g] s] |] eqn:El; [|congruence].
    apply last_with_In in El. destruct El as [Hi Hc]. cbn in Hc. subst c'. destruct Hrl as (x' & Hx' & _ & _ & Hsch). cbn [fst snd] in Hsch.
    assert (x' = x) by congruence. subst x'. unfold responses_of in Hi. apply in_flat_map in Hi. destruct Hi as (q & Hq & Hi).
    destruct q; try (now destruct Hi). destruct Hi as [ [= -> -> ->] |[] ]. exists l, g, s. split; [exact Hl|]. split; [exact Hm|]. split; [exact Hq|].
    destruct s as [| |t|rr].
    - rewrite Hr in Hsch. discriminate.
    - right. exists (TPrim PUnit). split; [reflexivity|]. destruct Hsch as (r' & Hr' & Hrf). intros Hs Hex Hdv j Hn Hj.
      assert (r' = r) by congruence. subst r'. eapply refers_readable; eauto. eapply nt_response; eauto. reflexivity.
    - right. exists t. split; [reflexivity|]. destruct Hsch as (r' & Hr' & Hrf). intros Hs Hex Hdv j Hn Hj.
      assert (r' = r) by congruence. subst r'. eapply refers_readable; eauto. eapply nt_response; eauto. reflexivity.
    - left. congruence.
  Qed.
End Api.
