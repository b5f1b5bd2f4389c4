(** Documentation does not restrict. *)
From Coq Require Import Lia.
From Verif Require Import Attr Ast Derive Schema SchemaSpec Gen GenSpec GenFacts SoundSpec StrictSpec DocsSpec DocsFacts DocsFacts2 DocsFacts3.

Scheme valid_docs_ind := Minimality for valid Sort Prop
  with valid_model_docs_ind := Minimality for valid_model Sort Prop.
Combined Scheme valid_docs from valid_docs_ind, valid_model_docs_ind.
Scheme accepts_docs_ind := Minimality for accepts Sort Prop
  with accepts_model_docs_ind := Minimality for accepts_model Sort Prop
  with rejects_docs_ind := Minimality for rejects Sort Prop
  with rejects_model_docs_ind := Minimality for rejects_model Sort Prop.
Combined Scheme strict_docs from accepts_docs_ind, accepts_model_docs_ind, rejects_docs_ind, rejects_model_docs_ind.

Section Docs.
  Variable K : docs.
  Variable S S' : bmap str model.
  Hypothesis same_schemas : bare_schemas K S = bare_schemas K S'.

  Lemma get_bare n m : bm_get n S = Some m -> exists m', bm_get n S' = Some m' /\ bare_model K m = bare_model K m'.
  Proof.
    intros H. assert (Hg : bm_get n (over (bare_model K) S) = bm_get n (over (bare_model K) S')) by (now f_equal).
    rewrite !over_get, H in Hg. destruct (bm_get n S') as [m'|]; [|discriminate]. injection Hg as Hg. now exists m'.
  Qed.
  Lemma get_bare_none n : bm_get n S = None -> bm_get n S' = None.
  Proof.
    intros H. assert (Hg : bm_get n (over (bare_model K) S) = bm_get n (over (bare_model K) S')) by (now f_equal).
    rewrite !over_get, H in Hg. now destruct (bm_get n S').
  Qed.
  Lemma bare_link r n : bare_ref K r = Link n -> r = Link n.
  Proof. destruct r; cbn; try discriminate. auto. Qed.
  Lemma bare_inline r m : bare_ref K r = Inline m -> exists m', r = Inline m' /\ bare_model K m' = m.
  Proof. destruct r; try discriminate. intros [= H]. eauto. Qed.
  Lemma bare_single m' d n td : bare_model K (Model d (Single (MType n td))) = bare_model K m' ->
    exists d' td', m' = Model d' (Single (MType n td')) /\ bare_td K td = bare_td K td'.
  Proof. destruct m' as [d' [[n' td']|l|l|l]]; try discriminate. intros [= _ -> H]. eauto. Qed.
  Lemma bare_oneof m' d l : bare_model K (Model d (OneOf l)) = bare_model K m' -> exists d' l', m' = Model d' (OneOf l') /\ map (bare_ref K) l = map (bare_ref K) l'.
  Proof. destruct m' as [d' [[n' td']|l'|l'|l']]; try discriminate. intros [= _ H]. eauto. Qed.
  Lemma bare_anyof m' d l : bare_model K (Model d (AnyOf l)) = bare_model K m' -> exists d' l', m' = Model d' (AnyOf l') /\ map (bare_ref K) l = map (bare_ref K) l'.
  Proof. destruct m' as [d' [[n' td']|l'|l'|l']]; try discriminate. intros [= _ H]. eauto. Qed.
  Lemma bare_allof m' d l : bare_model K (Model d (AllOf l)) = bare_model K m' -> exists d' l', m' = Model d' (AllOf l') /\ map (bare_ref K) l = map (bare_ref K) l'.
  Proof. destruct m' as [d' [[n' td']|l'|l'|l']]; try discriminate. intros [= _ H]. eauto. Qed.
  Lemma bare_str td s : bare_td K (TdString s) = bare_td K td -> exists s', td = TdString s' /\ mst_variants s = mst_variants s'.
  Proof. destruct td; try discriminate. cbn. unfold bare_string. intros [= H _ _]. eauto. Qed.
  Lemma bare_arr td r : bare_td K (TdArray r) = bare_td K td -> exists r', td = TdArray r' /\ bare_ref K r = bare_ref K r'.
  Proof. destruct td; try discriminate. intros [= H]. eauto. Qed.
  Lemma bare_obj td p a q : bare_td K (TdObject (MObject p a q)) = bare_td K td ->
    exists p' a', td = TdObject (MObject p' a' q) /\ over (bare_ref K) p = over (bare_ref K) p' /\ option_map (bare_ref K) a = option_map (bare_ref K) a'.
  Proof.
    destruct td as [s|s|s| |r|[p' a' q']]; try discriminate. rewrite !bare_td_object. intros [= H1 H2 <-]. eauto.
  Qed.
  Lemma prop_bare (p p' : bmap str model_ref) k : over (bare_ref K) p = over (bare_ref K) p' -> option_map (bare_ref K) (bm_get k p) = option_map (bare_ref K) (bm_get k p').
  Proof. intros H. rewrite <- !over_get. now rewrite H. Qed.
  Lemma map_In_bare (l l' : list model_ref) r : map (bare_ref K) l = map (bare_ref K) l' -> In r l -> exists r', In r' l' /\ bare_ref K r = bare_ref K r'.
  Proof. intros H Hr. apply (in_map (bare_ref K)) in Hr. rewrite H in Hr. apply in_map_iff in Hr as (r' & H1 & H2). eauto. Qed.
  Lemma map_split (l1 l2 l' : list model_ref) r : map (bare_ref K) (l1 ++ r :: l2) = map (bare_ref K) l' ->
    exists l1' r' l2', l' = l1' ++ r' :: l2' /\ map (bare_ref K) l1 = map (bare_ref K) l1' /\ bare_ref K r = bare_ref K r' /\ map (bare_ref K) l2 = map (bare_ref K) l2'.
  Proof.
    rewrite map_app. intros H. symmetry in H. apply map_eq_app in H as (l1' & l3 & -> & H1 & H2). cbn [map] in H2.
    destruct l3 as [|r' l2']; [discriminate|]. injection H2 as H2 H3. exists l1', r', l2'. now rewrite H1, H2, H3.
  Qed.

  Ltac single H := apply bare_single in H as (?d & ?td & -> & H).
  Lemma valid_bare :
    (forall r j, valid S r j -> forall r', bare_ref K r = bare_ref K r' -> valid S' r' j) /\
    (forall m j, valid_model S m j -> forall m', bare_model K m = bare_model K m' -> valid_model S' m' j).
  Proof.
    apply valid_docs.
    - intros j r' H. destruct r'; try discriminate. constructor.
    - intros n m j Hg _ IH r' H. symmetry in H. apply bare_link in H as ->. apply get_bare in Hg as (m' & Hg & Hb). econstructor; [exact Hg|auto].
    - intros m j _ IH r' H. symmetry in H. apply bare_inline in H as (m' & -> & H). constructor. auto.
    - intros d td m' H. single H. constructor.
    - intros d n s x Hv m' H. single H. apply bare_str in H as (s' & -> & Hs). constructor. now rewrite <- Hs.
    - intros d n s z m' H. single H. destruct td; try discriminate. constructor.
    - intros d n s z m' H. single H. destruct td; try discriminate. constructor.
    - intros d n s x m' H. single H. destruct td; try discriminate. constructor.
    - intros d n b m' H. single H. destruct td; try discriminate. constructor.
    - intros d n items l _ IH m' H. single H. apply bare_arr in H as (r' & -> & H). constructor. eauto.
    - intros d n p a q l Hq _ IHp _ IHa m' H. single H. apply bare_obj in H as (p' & a' & -> & Hp & Ha). constructor; [exact Hq| |].
      + intros k j r Hin Hg. pose proof (prop_bare _ _ k Hp) as Hb. rewrite Hg in Hb. destruct (bm_get k p) as [r0|] eqn:Eg; [|discriminate].
        injection Hb as Hb. eauto.
      + intros k j r Hin Hg ->. pose proof (prop_bare _ _ k Hp) as Hb. rewrite Hg in Hb. destruct (bm_get k p) as [r0|] eqn:Eg; [discriminate|].
        destruct a as [r0|]; [|discriminate]. injection Ha as Ha. eauto.
    - intros d l r j Hin _ IH m' H. apply bare_oneof in H as (d' & l' & -> & H). destruct (map_In_bare _ _ _ H Hin) as (r' & H1 & H2). econstructor; eauto.
    - intros d l r j Hin _ IH m' H. apply bare_anyof in H as (d' & l' & -> & H). destruct (map_In_bare _ _ _ H Hin) as (r' & H1 & H2). econstructor; eauto.
    - intros d l j _ IH m' H. apply bare_allof in H as (d' & l' & -> & H). constructor. intros r Hr. symmetry in H.
      destruct (map_In_bare _ _ _ H Hr) as (r' & H1 & H2). eauto.
  Qed.

  Lemma strict_bare :
    (forall r j, accepts S r j -> forall r', bare_ref K r = bare_ref K r' -> accepts S' r' j) /\
    (forall m j, accepts_model S m j -> forall m', bare_model K m = bare_model K m' -> accepts_model S' m' j) /\
    (forall r j, rejects S r j -> forall r', bare_ref K r = bare_ref K r' -> rejects S' r' j) /\
    (forall m j, rejects_model S m j -> forall m', bare_model K m = bare_model K m' -> rejects_model S' m' j).
  Proof.
    apply strict_docs.
    - intros j r' H. destruct r'; try discriminate. constructor.
    - intros n m j Hg _ IH r' H. symmetry in H. apply bare_link in H as ->. apply get_bare in Hg as (m' & Hg & Hb). econstructor; [exact Hg|auto].
    - intros m j _ IH r' H. symmetry in H. apply bare_inline in H as (m' & -> & H). constructor. auto.
    - intros d td m' H. single H. constructor.
    - intros d n s x Hv m' H. single H. apply bare_str in H as (s' & -> & Hs). constructor. now rewrite <- Hs.
    - intros d n s z m' H. single H. destruct td; try discriminate. constructor.
    - intros d n s z m' H. single H. destruct td; try discriminate. constructor.
    - intros d n s x m' H. single H. destruct td; try discriminate. constructor.
    - intros d n b m' H. single H. destruct td; try discriminate. constructor.
    - intros d n items l _ IH m' H. single H. apply bare_arr in H as (r' & -> & H). constructor. eauto.
    - intros d n p a q l Hq _ IHp _ IHa m' H. single H. apply bare_obj in H as (p' & a' & -> & Hp & Ha). constructor; [exact Hq| |].
      + intros k j r Hin Hg. pose proof (prop_bare _ _ k Hp) as Hb. rewrite Hg in Hb. destruct (bm_get k p) as [r0|] eqn:Eg; [|discriminate].
        injection Hb as Hb. eauto.
      + intros k j r Hin Hg ->. pose proof (prop_bare _ _ k Hp) as Hb. rewrite Hg in Hb. destruct (bm_get k p) as [r0|] eqn:Eg; [discriminate|].
        destruct a as [r0|]; [|discriminate]. injection Ha as Ha. eauto.
    - intros d l1 r l2 j _ IHr _ IHo m' H. apply bare_oneof in H as (d' & l' & -> & H).
      apply map_split in H as (l1' & r' & l2' & -> & H1 & H2 & H3). constructor; [auto|]. intros r0 Hr0.
      assert (Hm : map (bare_ref K) (l1' ++ l2') = map (bare_ref K) (l1 ++ l2)) by now rewrite !map_app, H1, H3.
      destruct (map_In_bare _ _ _ Hm Hr0) as (r1 & Hi & Hb). eauto.
    - intros d l r j Hin _ IH m' H. apply bare_anyof in H as (d' & l' & -> & H). destruct (map_In_bare _ _ _ H Hin) as (r' & H1 & H2). econstructor; eauto.
    - intros d l j _ IH m' H. apply bare_allof in H as (d' & l' & -> & H). constructor. intros r Hr. symmetry in H.
      destruct (map_In_bare _ _ _ H Hr) as (r' & H1 & H2). eauto.
    - intros n j Hg r' H. symmetry in H. apply bare_link in H as ->. apply rj_unresolved, get_bare_none, Hg.
    - intros n m j Hg _ IH r' H. symmetry in H. apply bare_link in H as ->. apply get_bare in Hg as (m' & Hg & Hb). eapply rj_link; [exact Hg|auto].
    - intros m j _ IH r' H. symmetry in H. apply bare_inline in H as (m' & -> & H). constructor. auto.
    - intros d td m' H. single H. constructor.
    - intros d n td j Hj Hk m' H. apply bare_single in H as (d' & td' & -> & H). apply rm_kind; [exact Hj|]. intros Hk'. apply Hk.
      destruct td, td'; try discriminate; exact Hk'.
    - intros d n s vs x Hv Hx m' H. single H. apply bare_str in H as (s' & -> & Hs). eapply rm_value; [rewrite <- Hs; exact Hv|exact Hx].
    - intros d n items l j Hj _ IH m' H. single H. apply bare_arr in H as (r' & -> & H). eapply rm_item; eauto.
    - intros d n p a q l k Hk Hn m' H. single H. apply bare_obj in H as (p' & a' & -> & Hp & Ha). eapply rm_missing; eauto.
    - intros d n p a q l k j r Hin Hg _ IH m' H. single H. apply bare_obj in H as (p' & a' & -> & Hp & Ha).
      pose proof (prop_bare _ _ k Hp) as Hb. rewrite Hg in Hb. destruct (bm_get k p') as [r0|] eqn:Eg; [|discriminate]. injection Hb as Hb.
      eapply rm_property; eauto.
    - intros d n p q l k j r Hin Hg _ IH m' H. single H. apply bare_obj in H as (p' & a' & -> & Hp & Ha).
      pose proof (prop_bare _ _ k Hp) as Hb. rewrite Hg in Hb. destruct (bm_get k p') as [r0|] eqn:Eg; [discriminate|].
      destruct a' as [r0|]; [|discriminate]. injection Ha as Ha. eapply rm_additional; eauto.
    - intros d l j _ IH m' H. apply bare_oneof in H as (d' & l' & -> & H). constructor. intros r Hr. symmetry in H.
      destruct (map_In_bare _ _ _ H Hr) as (r' & H1 & H2). eauto.
    - intros d l1 r1 l2 r2 l3 j _ IH1 _ IH2 m' H. apply bare_oneof in H as (d' & l' & -> & H).
      apply map_split in H as (l1' & r1' & l2' & -> & _ & Hr1 & H). apply map_split in H as (l3' & r2' & l4' & -> & _ & Hr2 & _).
      apply rm_oneof_two; auto.
    - intros d l j _ IH m' H. apply bare_anyof in H as (d' & l' & -> & H). constructor. intros r Hr. symmetry in H.
      destruct (map_In_bare _ _ _ H Hr) as (r' & H1 & H2). eauto.
    - intros d l r j Hin _ IH m' H. apply bare_allof in H as (d' & l' & -> & H). destruct (map_In_bare _ _ _ H Hin) as (r' & H1 & H2). eapply rm_allof; eauto.
  Qed.
End Docs.

Lemma map_Forall2 {A B} (g : A -> B) (P : A -> A -> Prop) : (forall a a', g a = g a' -> P a a') ->
  forall l l', map g l = map g l' -> Forall2 P l l'.
Proof. intros H l. induction l as [|a l IH]; intros [|a' l']; cbn; try discriminate; [constructor|]. intros [= H1 H2]. constructor; auto. Qed.

Lemma docs_accept K S S' rs rs' : map (bare_ref K) rs = map (bare_ref K) rs' -> bare_schemas K S = bare_schemas K S' ->
  Forall2 (fun r r' => forall j, (valid S r j <-> valid S' r' j) /\ (accepts S r j <-> accepts S' r' j) /\ (rejects S r j <-> rejects S' r' j)) rs rs'.
Proof.
  intros Hr Hs. eapply map_Forall2; [|exact Hr]. intros r r' H j.
  destruct (valid_bare K _ _ Hs) as [V _]. destruct (valid_bare K _ _ (eq_sym Hs)) as [V' _].
  destruct (strict_bare K _ _ Hs) as (A & _ & R & _). destruct (strict_bare K _ _ (eq_sym Hs)) as (A' & _ & R' & _).
  repeat split; intros Hj; eauto.
Qed.

Lemma answers_unique E l cx rs1 cx1 rs2 cx2 : answers E l cx rs1 cx1 -> answers E l cx rs2 cx2 -> rs1 = rs2 /\ cx1 = cx2.
Proof.
  intros H. revert rs2 cx2. induction H as [cx|c l cx r cx1 rs cx2 [f1 H1] _ IH]; intros rs2 cx2' H'.
  - inversion H'; subst. now split.
  - inversion H' as [|c' l' cx' r' cx1' rs' cx2'' [f2 H2] Ha]; subst.
    apply (mention_le E f1 (f1 + f2)) in H1; [|lia]. apply (mention_le E f2 (f1 + f2)) in H2; [|lia]. rewrite H1 in H2. injection H2 as <- <-.
    destruct (IH _ _ Ha) as [-> ->]. now split.
Qed.

(** what two programs that differ in their documentation answer *)
Lemma docs_only K pe pp uni ev ev' D D' E E' l l' rs cx : (of_examples K = false -> forall s, ev s = ev' s) ->
  program pe pp uni ev D E -> program pe pp uni ev' D' E' -> (forall id, redocumented K (D id) (D' id)) -> Forall2 (redocumented_call K) l l' ->
  answers E l cx_new rs cx ->
  (exists rs' cx', answers E' l' cx_new rs' cx') /\
  forall rs' cx', answers E' l' cx_new rs' cx' ->
    map (bare_ref K) rs = map (bare_ref K) rs' /\ bare_schemas K (cx_schemas cx) = bare_schemas K (cx_schemas cx').
Proof.
  intros He HE HE' HD Hl H. destruct (programs_alike K _ _ _ _ _ _ _ _ _ _ _ _ _ He HE HE' HD Hl H) as (rs1 & cx1 & H1 & H2 & H3).
  split; [eauto|]. intros rs' cx' H'. destruct (answers_unique _ _ _ _ _ _ _ H1 H') as [-> ->]. now split.
Qed.
Lemma docs_same_json K pe pp uni ev ev' D D' E E' l l' rs cx rs' cx' : (of_examples K = false -> forall s, ev s = ev' s) ->
  program pe pp uni ev D E -> program pe pp uni ev' D' E' -> (forall id, redocumented K (D id) (D' id)) -> Forall2 (redocumented_call K) l l' ->
  answers E l cx_new rs cx -> answers E' l' cx_new rs' cx' ->
  Forall2 (fun r r' => forall j,
    (valid (cx_schemas cx) r j <-> valid (cx_schemas cx') r' j) /\
    (accepts (cx_schemas cx) r j <-> accepts (cx_schemas cx') r' j) /\
    (rejects (cx_schemas cx) r j <-> rejects (cx_schemas cx') r' j)) rs rs'.
Proof.
  intros He HE HE' HD Hl H H'. destruct (docs_only K _ _ _ _ _ _ _ _ _ _ _ _ _ He HE HE' HD Hl H) as [_ Hr].
  destruct (Hr _ _ H') as [H1 H2]. exact (docs_accept K _ _ _ _ H1 H2).
Qed.

(** a source without documentation *)
Lemma bare_attrs_twice K l : bare_attrs K (bare_attrs K l) = bare_attrs K l.
Proof.
  unfold bare_attrs. induction l as [|a l IH]; [reflexivity|]. cbn [flat_map]. rewrite flat_map_app, IH. f_equal. clear IH.
  unfold bare_attr at 2. destruct (is_ident (u "doc") (at_path a) && of_descriptions K) eqn:Hd; [unfold bare_attr; now rewrite Hd|].
  destruct (is_ident (u "opg") (at_path a)) eqn:Ho.
  - destruct (at_meta a) as [items| |] eqn:Em.
    + destruct (filter _ items) as [|n rest] eqn:Ef; [unfold bare_attr; now rewrite Hd, Ho, Em, Ef|].
      cbn [flat_map]. unfold bare_attr. cbn [at_path at_meta]. rewrite Hd, Ho, Em, Ef.
      assert (Hf : filter (fun n => negb (documents K n)) (n :: rest) = n :: rest).
      { rewrite <- Ef. clear. induction items as [|x l IH]; [reflexivity|]. cbn. destruct (negb (documents K x)) eqn:Hx; cbn; [now rewrite Hx, IH|exact IH]. }
      now rewrite Hf.
    + cbn [flat_map]. unfold bare_attr. now rewrite Hd, Ho, Em.
    + cbn [flat_map]. unfold bare_attr. now rewrite Hd, Ho, Em.
  - cbn [flat_map]. unfold bare_attr. now rewrite Hd, Ho.
Qed.
Lemma bare_input_redocumented K i : redocumented K i (bare_input K i).
Proof.
  unfold redocumented. assert (Hf : forall f, bare_fields K (bare_fields K f) = bare_fields K f).
  { assert (Hl : forall l, map (bare_field K) (map (bare_field K) l) = map (bare_field K) l).
    { intros l. rewrite map_map. apply map_ext. intros [a id t]. unfold bare_field. cbn [fs_attrs fs_ident fs_ty]. now rewrite bare_attrs_twice. }
    intros [l|l|]; cbn [bare_fields]; now rewrite ?Hl. }
  destruct i as [a id d]. unfold bare_input. cbn [di_attrs di_ident di_data]. rewrite bare_attrs_twice. f_equal. destruct d as [vs|f|]; [|now rewrite Hf|reflexivity].
  f_equal. rewrite map_map. apply map_ext. intros [va vi vf vd]. unfold bare_variant. cbn [vs_attrs vs_ident vs_fields vs_discriminant]. now rewrite bare_attrs_twice, Hf.
Qed.
Lemma docs_removal K pe pp uni ev i t : derive pe pp uni ev i = DOk t ->
  exists t', derive pe pp uni ev (bare_input K i) = DOk t' /\ td_ident t' = td_ident t /\ td_inline t' = td_inline t.
Proof.
  intros H. destruct (derive_bare K ev ev (fun _ _ => eq_refl) _ _ _ _ _ H) as (t' & H1 & H2). exists t'. unfold bare_td_def in H2.
  injection H2 as H2 H3 _. auto.
Qed.
