(** The two readings agree on schemas whose alternatives exclude each other. *)
From Verif Require Import Attr Ast Derive DeriveSpec Schema SchemaSpec SchemaFacts Gen GenSpec GenFacts2 SoundSpec FitsSpec FitsFacts StrictSpec.

Scheme accepts_m := Minimality for accepts Sort Prop
with accepts_model_m := Minimality for accepts_model Sort Prop
with rejects_m := Minimality for rejects Sort Prop
with rejects_model_m := Minimality for rejects_model Sort Prop.
Combined Scheme strict_ind from accepts_m, accepts_model_m, rejects_m, rejects_model_m.
Scheme valid_m := Minimality for valid Sort Prop
with valid_model_m := Minimality for valid_model Sort Prop.
Combined Scheme valid_both_ind from valid_m, valid_model_m.

Lemma split_two {A} (l1 : list A) r l2 k1 r1 k2 r2 k3 : l1 ++ r :: l2 = k1 ++ r1 :: k2 ++ r2 :: k3 ->
  In r1 (l1 ++ l2) \/ In r2 (l1 ++ l2).
Proof.
  revert k1. induction l1 as [|a l1 IH]; intros [|b k1] H; cbn in H.
  - injection H as -> ->. right. cbn. apply in_or_app. right. now left.
  - injection H as -> ->. left. cbn. apply in_or_app. right. now left.
  - injection H as -> H. left. now left.
  - injection H as -> H. destruct (IH _ H) as [H'|H']; [left|right]; now right.
Qed.

Lemma strict_consistent S :
  (forall r j, accepts S r j -> ~ rejects S r j) /\ (forall m j, accepts_model S m j -> ~ rejects_model S m j) /\
  (forall r j, rejects S r j -> ~ accepts S r j) /\ (forall m j, rejects_model S m j -> ~ accepts_model S m j).
Proof.
  apply strict_ind.
  - intros j H. inversion H.
  - intros n m j Hg _ IH H. inversion H; subst; [congruence|]. assert (m0 = m) by congruence. now subst.
  - intros m j _ IH H. inversion H; subst. auto.
  - intros d td H. inversion H; subst; congruence.
  - intros d n s x Hx H. inversion H; subst; [now match goal with H : ~ kind_matches _ _ |- _ => destruct H; cbn end|].
    match goal with H : ~ In x _ |- _ => apply H end. auto.
  - intros d n s z H. inversion H; subst. now match goal with H : ~ kind_matches _ _ |- _ => destruct H; cbn end.
  - intros d n s z H. inversion H; subst. now match goal with H : ~ kind_matches _ _ |- _ => destruct H; cbn end.
  - intros d n s z H. inversion H; subst. now match goal with H : ~ kind_matches _ _ |- _ => destruct H; cbn end.
  - intros d n s H. inversion H; subst. now match goal with H : ~ kind_matches _ _ |- _ => destruct H; cbn end.
  - intros d n items l _ IH H. inversion H; subst; [now match goal with H : ~ kind_matches _ _ |- _ => destruct H; cbn end|]. eapply IH; eauto.
  - intros d n props add req l Hr _ IHp _ IHa H. inversion H; subst;
      [now match goal with H : ~ kind_matches _ _ |- _ => destruct H; cbn end|auto|eapply IHp; eauto|eapply IHa; eauto].
  - intros d l1 r l2 j _ IHr _ IHo H. inversion H; subst.
    + apply IHr. match goal with H : forall r, In r _ -> rejects _ _ _ |- _ => apply H end. apply in_or_app. right. now left.
    + match goal with H : _ ++ _ :: _ ++ _ :: _ = _ |- _ => symmetry in H; destruct (split_two _ _ _ _ _ _ _ _ H) as [Hi|Hi] end.
      * now apply (IHo _ Hi).
      * now apply (IHo _ Hi).
  - intros d l r j Hi _ IH H. inversion H; subst. auto.
  - intros d l j _ IH H. inversion H; subst. eapply IH; eauto.
  - intros n j Hg H. inversion H; subst. congruence.
  - intros n m j Hg _ IH H. inversion H; subst. assert (m0 = m) by congruence. now subst.
  - intros m j _ IH H. inversion H; subst. auto.
  - intros d td H. inversion H.
  - intros d n td j Hn Hk H. apply Hk. inversion H; subst; cbn; auto; congruence.
  - intros d n s vs x Hv Hx H. inversion H; subst. auto.
  - intros d n items l j Hi _ IH H. inversion H; subst. auto.
  - intros d n props add req l k Hr Hk H. inversion H; subst. auto.
  - intros d n props add req l k j r Hi Hg _ IH H. inversion H; subst. eauto.
  - intros d n props req l k j r Hi Hg _ IH H. inversion H; subst. eauto.
  - intros d l j _ IH H. inversion H; subst. eapply IH; [|eassumption]. apply in_or_app. right. now left.
  - intros d l1 r1 l2 r2 l3 j _ IH1 _ IH2 H. inversion H; subst.
    match goal with H : _ ++ _ :: _ = _ ++ _ :: _ ++ _ :: _ |- _ => destruct (split_two _ _ _ _ _ _ _ _ H) as [Hi|Hi] end; auto.
  - intros d l j _ IH H. inversion H; subst. eapply IH; eauto.
  - intros d l r j Hi _ IH H. inversion H; subst. auto.
Qed.

(** strict acceptance is acceptance *)
Lemma accepts_valid S : (forall r j, accepts S r j -> valid S r j) /\ (forall m j, accepts_model S m j -> valid_model S m j).
Proof.
  enough (H : (forall r j, accepts S r j -> valid S r j) /\ (forall m j, accepts_model S m j -> valid_model S m j) /\
    (forall r j, rejects S r j -> True) /\ (forall m j, rejects_model S m j -> True)) by (split; apply H).
  apply strict_ind; try (intros; exact I); try (intros; econstructor; eauto; fail).
  intros d l1 r l2 j _ IH _ _. apply vm_oneof with r; [|exact IH]. apply in_or_app. right. now left.
Qed.

(** ** Acceptance, of any documents or of those without undescribed members *)
Inductive within (w : Prop) (S : bmap str model) : model_ref -> json -> Prop :=
| wi_any j : within w S Any j
| wi_link n m j : bm_get n S = Some m -> within_model w S m j -> within w S (Link n) j
| wi_inline m j : within_model w S m j -> within w S (Inline m) j
with within_model (w : Prop) (S : bmap str model) : model -> json -> Prop :=
| wm_null d td : within_model w S (Model d (Single (MType true td))) JNull
| wm_string d n s x : (forall vs, mst_variants s = Some vs -> In x vs) ->
    within_model w S (Model d (Single (MType n (TdString s)))) (JStr x)
| wm_integer d n s z : within_model w S (Model d (Single (MType n (TdInteger s)))) (JInt z)
| wm_number_int d n s z : within_model w S (Model d (Single (MType n (TdNumber s)))) (JInt z)
| wm_number d n s x : within_model w S (Model d (Single (MType n (TdNumber s)))) (JFloat x)
| wm_boolean d n b : within_model w S (Model d (Single (MType n TdBoolean))) (JBool b)
| wm_array d n items l : (forall j, In j l -> within w S items j) ->
    within_model w S (Model d (Single (MType n (TdArray items)))) (JArr l)
| wm_object d n props add req l :
    (forall k, In k req -> In k (keys l)) ->
    (forall k j r, In (k, j) l -> bm_get k props = Some r -> within w S r j) ->
    (w -> forall k j, In (k, j) l -> bm_get k props = None -> add <> None) ->
    (forall k j r, In (k, j) l -> bm_get k props = None -> add = Some r -> within w S r j) ->
    within_model w S (Model d (Single (MType n (TdObject (MObject props add req))))) (JObj l)
| wm_oneof d l r j : In r l -> within w S r j -> within_model w S (Model d (OneOf l)) j
| wm_anyof d l r j : In r l -> within w S r j -> within_model w S (Model d (AnyOf l)) j
| wm_allof d l j : (forall r, In r l -> within w S r j) -> within_model w S (Model d (AllOf l)) j.
Scheme within_m := Minimality for within Sort Prop
with within_model_m := Minimality for within_model Sort Prop.
Combined Scheme within_ind' from within_m, within_model_m.
Lemma within_valid w S : (forall r j, within w S r j -> valid S r j) /\ (forall m j, within_model w S m j -> valid_model S m j).
Proof. apply within_ind'; intros; econstructor; eauto. Qed.
Lemma valid_within S : (forall r j, valid S r j -> within False S r j) /\ (forall m j, valid_model S m j -> within_model False S m j).
Proof. apply valid_both_ind; intros; econstructor; eauto. Qed.
Lemma fits_within S : (forall r j, fits S r j -> within True S r j) /\ (forall m j, fits_model S m j -> within_model True S m j).
Proof. apply fits_both_ind; intros; econstructor; eauto. Qed.

(** ** Alternatives that exclude each other *)

Definition resolves (S : bmap str model) (r : model_ref) (m : model) : Prop :=
  r = Inline m \/ exists n, r = Link n /\ bm_get n S = Some m.
Inductive apart (w : Prop) (S : bmap str model) (r1 r2 : model_ref) : Prop :=
| ap_kind m1 m2 b1 b2 : resolves S r1 m1 -> resolves S r2 m2 -> kinds_apart (kind_of m1) (kind_of m2) ->
    nullable_of m1 = Some b1 -> nullable_of m2 = Some b2 -> b1 && b2 = false -> apart w S r1 r2
| ap_tag tag v1 v2 m1 m2 : r1 = Inline m1 -> r2 = Inline m2 -> carries_tag tag v1 r1 -> carries_tag tag v2 r2 -> v1 <> v2 ->
    nullable_of m1 = Some false -> nullable_of m2 = Some false -> apart w S r1 r2
| ap_members m1 m2 b1 b2 o1 o2 k1 k2 : w -> resolves S r1 m1 -> resolves S r2 m2 -> object_of m1 = Some o1 -> object_of m2 = Some o2 ->
    mo_additional o1 = None -> mo_additional o2 = None ->
    In k1 (mo_required o1) -> bm_get k1 (mo_properties o2) = None -> In k2 (mo_required o2) -> bm_get k2 (mo_properties o1) = None ->
    nullable_of m1 = Some b1 -> nullable_of m2 = Some b2 -> b1 && b2 = false -> apart w S r1 r2.
Lemma kinds_apart_sym k1 k2 : kinds_apart k1 k2 -> kinds_apart k2 k1.
Proof. intros (H1 & H2 & H3 & H4). repeat split; try apply H1; try apply H2; try congruence. tauto. Qed.
Lemma apart_sym w S r1 r2 : apart w S r1 r2 -> apart w S r2 r1.
Proof.
  intros [m1 m2 b1 b2 H1 H2 H3 H4 H5 H6|tag v1 v2 m1 m2 H1 H2 H3 H4 H5 H6 H7|m1 m2 b1 b2 o1 o2 k1 k2 Hw H1 H2 H3 H4 H5 H6 H7 H8 H9 H10 H11 H12 H13].
  - eapply ap_kind; eauto; [now apply kinds_apart_sym|now rewrite Bool.andb_comm].
  - eapply ap_tag; eauto.
  - eapply (ap_members w S r2 r1 m2 m1 b2 b1 o2 o1 k2 k1); eauto. now rewrite Bool.andb_comm.
Qed.

(** a model of one kind and the values of another *)
Lemma valid_kind S m j : valid_model S m j -> simple_kind (kind_of m) ->
  exists d n td, m = Model d (Single (MType n td)) /\ (j = JNull /\ n = true \/ j <> JNull /\ kind_matches td j).
Proof.
  intros Hv (H1 & H2 & H3). destruct Hv; cbn in *; try congruence; do 3 eexists; (split; [reflexivity|]);
    [left; auto|right; split; [discriminate|exact I]..].
Qed.
Lemma kind_rejects S m1 m2 b1 b2 j : kinds_apart (kind_of m1) (kind_of m2) -> nullable_of m1 = Some b1 -> nullable_of m2 = Some b2 ->
  b1 && b2 = false -> valid_model S m1 j -> rejects_model S m2 j.
Proof.
  intros (Hs1 & Hs2 & Hne & Hnum) Hb1 Hb2 Hb Hv. destruct (valid_kind _ _ _ Hv Hs1) as (d & n & td & -> & Hj).
  destruct m2 as [d2 [[n2 td2]|l|l|l]]; try discriminate. cbn in Hb1, Hb2. injection Hb1 as ->. injection Hb2 as ->.
  destruct Hj as [[-> ->]|[Hj Hm]].
  - cbn in Hb. subst. constructor.
  - apply rm_kind; [exact Hj|]. intros Hm2. unfold numeric in Hnum.
    destruct td, td2, j; cbn in *; try contradiction; try congruence; apply Hnum; auto.
Qed.
Lemma resolves_valid S r m j : resolves S r m -> (valid S r j <-> valid_model S m j) .
Proof.
  intros [->|(n & -> & Hg)]; split; intros H.
  - now inversion H.
  - now constructor.
  - inversion H; subst. assert (m0 = m) by congruence. now subst.
  - econstructor; eauto.
Qed.
Lemma resolves_rejects S r m j : resolves S r m -> rejects_model S m j -> rejects S r j.
Proof. intros [->|(n & -> & Hg)] H; [now constructor|now apply rj_link with m]. Qed.

Lemma carries_valid' S tag n am j : carries_tag tag n (Inline am) -> nullable_of am = Some false -> valid_model S am j ->
  exists ms, j = JObj ms /\ In (tag, JStr n) ms.
Proof.
  intros (am' & o & t & [= <-] & Ho & Hg & (Hk & He & _ & _ & Hn) & Hreq) Hf Hv.
  destruct am as [d [[b td]|l|l|l]]; try discriminate. destruct td; try discriminate. cbn in Ho, Hf. injection Ho as ->. injection Hf as ->.
  inversion Hv as [| | | | | | |d' n' props add req l Hr Hp Ha| | |]; subst. cbn [mo_required mo_properties] in *.
  exists l. split; [reflexivity|]. specialize (Hr _ Hreq). unfold keys in Hr. apply in_map_iff in Hr as ([k j] & Hk' & Hin). cbn in Hk'. subst k.
  assert (j = JStr n) as <-; [|exact Hin].
  pose proof (Hp _ _ _ Hin Hg) as Hvj. inversion Hvj as [| |? ? Hvm]; subst. destruct t as [dd dtt].
  unfold kind_of, enum_of, nullable_of in *. cbn in *. destruct dtt as [ [b' td] |l0|l0|l0]; try discriminate. destruct td as [s|s|s| |s|s]; try discriminate.
  injection Hn as ->. inversion Hvm as [|? ? ? x Hx| | | | | | | | |]; subst. specialize (Hx _ He). destruct Hx as [<-|[] ]. reflexivity.
Qed.
Lemma carries_rejects S tag n v am ms : carries_tag tag n (Inline am) -> v <> n -> In (tag, JStr v) ms -> rejects_model S am (JObj ms).
Proof.
  intros (am' & o & t & [= <-] & Ho & Hg & (Hk & He & _ & _ & Hn) & Hreq) Hne Hin.
  destruct am as [d [[b td]|l|l|l]]; try discriminate. destruct td as [| | | | |[props add req]]; try discriminate. cbn in Ho. injection Ho as <-. cbn in Hg.
  eapply rm_property; [exact Hin|exact Hg|]. constructor. destruct t as [dd dtt].
  unfold kind_of, enum_of in *. cbn in *. destruct dtt as [ [b' td] |l0|l0|l0]; try discriminate. destruct td as [s|s|s| |s|s]; try discriminate.
  eapply rm_value; [exact He|]. intros [->|[]]. now apply Hne.
Qed.
Lemma resolves_within w S r m j : resolves S r m -> within w S r j -> within_model w S m j.
Proof.
  intros [->|(n & -> & Hg)] H; [now inversion H|]. inversion H; subst. assert (m0 = m) by congruence. now subst.
Qed.
(** an object without what another requires *)
Lemma members_rejects (w : Prop) S m1 m2 b1 b2 o1 o2 k j : w -> object_of m1 = Some o1 -> object_of m2 = Some o2 -> mo_additional o1 = None ->
  In k (mo_required o2) -> bm_get k (mo_properties o1) = None -> nullable_of m1 = Some b1 -> nullable_of m2 = Some b2 -> b1 && b2 = false ->
  within_model w S m1 j -> rejects_model S m2 j.
Proof.
  intros Hw Ho1 Ho2 Ha Hk Hp Hb1 Hb2 Hb Hv.
  destruct m1 as [d1 [[n1 td1]|l|l|l]]; try discriminate. destruct td1 as [| | | | |[props1 add1 req1]]; try discriminate. cbn in Ho1. injection Ho1 as <-.
  destruct m2 as [d2 [[n2 td2]|l|l|l]]; try discriminate. destruct td2 as [| | | | |[props2 add2 req2]]; try discriminate. cbn in Ho2. injection Ho2 as <-.
  cbn in *. injection Hb1 as ->. injection Hb2 as ->. subst add1.
  inversion Hv as [| | | | | | |d n props add req l Hr Hpr Hall Had| | |]; subst.
  - cbn in Hb. subst. constructor.
  - eapply rm_missing; [exact Hk|]. intros Hin. unfold keys in Hin. apply in_map_iff in Hin as ([k' j'] & Hx & Hin). cbn in Hx. subst k'.
    now apply (Hall Hw _ _ Hin Hp).
Qed.
Lemma apart_rejects w S r1 r2 j : apart w S r1 r2 -> within w S r1 j -> rejects S r2 j.
Proof.
  intros [m1 m2 b1 b2 H1 H2 H3 H4 H5 H6|tag v1 v2 m1 m2 -> -> H3 H4 H5 H6 H7|m1 m2 b1 b2 o1 o2 k1 k2 Hw H1 H2 H3 H4 H5 H6 H7 H8 H9 H10 H11 H12 H13] Hi;
    pose proof (proj1 (within_valid w S) _ _ Hi) as Hv.
  - apply (resolves_valid _ _ _ _ H1) in Hv. eapply resolves_rejects; [exact H2|]. eapply kind_rejects; eauto.
  - inversion Hv; subst. match goal with H : valid_model _ m1 _ |- _ => destruct (carries_valid' _ _ _ _ _ H3 H6 H) as (ms & -> & Hin) end.
    constructor. eapply carries_rejects; eauto.
  - eapply resolves_rejects; [exact H2|]. eapply (members_rejects w S m1 m2 b1 b2 o1 o2 k2); eauto. eapply resolves_within; eauto.
Qed.

Definition alternatives_apart (w : Prop) (S : bmap str model) (m : model) : Prop :=
  forall d l, m = Model d (OneOf l) -> ForallOrdPairs (apart w S) l.
Inductive exclusive (w : Prop) (S : bmap str model) (m : model) : Prop :=
| ex_intro_ : alternatives_apart w S m -> (forall m', child (Inline m') m -> exclusive w S m') -> exclusive w S m.
Definition exclusive_ref (w : Prop) (S : bmap str model) (r : model_ref) : Prop := match r with Inline m => exclusive w S m | _ => True end.

Lemma exclusive_child w S m r : exclusive w S m -> child r m -> exclusive_ref w S r.
Proof. intros [_ H] Hc. destruct r; cbn; auto. Qed.
Lemma pairs_split {A} (R : A -> A -> Prop) l1 r l2 : ForallOrdPairs R (l1 ++ r :: l2) ->
  (forall r', In r' l1 -> R r' r) /\ (forall r', In r' l2 -> R r r').
Proof.
  induction l1 as [|a l1 IH]; cbn; intros H; inversion H as [|? ? Hf Hp]; subst.
  - split; [intros r' []|]. now apply Forall_forall.
  - destruct (IH Hp) as [H1 H2]. split; [|exact H2]. intros r' [<-|Hi]; [|auto]. rewrite Forall_forall in Hf. apply Hf.
    apply in_or_app. right. now left.
Qed.

Section Readings.
  Variable w : Prop.
  Variable S : bmap str model.
  Hypothesis HS : forall n m, bm_get n S = Some m -> exclusive w S m.
  Lemma within_accepts :
    (forall r j, within w S r j -> exclusive_ref w S r -> accepts S r j) /\
    (forall m j, within_model w S m j -> exclusive w S m -> accepts_model S m j).
  Proof.
    apply within_ind'.
    - intros j _. constructor.
    - intros n m j Hg _ IH _. econstructor; eauto.
    - intros m j _ IH He. constructor. auto.
    - intros d td _. constructor.
    - intros d n s x Hx _. now constructor.
    - intros d n s z _. constructor.
    - intros d n s z _. constructor.
    - intros d n s z _. constructor.
    - intros d n s _. constructor.
    - intros d n items l _ IH He. constructor. intros j Hj. apply IH; [exact Hj|]. eapply exclusive_child; [exact He|constructor].
    - intros d n props add req l Hr _ IHp _ _ IHa He. constructor; [exact Hr| |].
      + intros k j r Hi Hg. eapply IHp; eauto. eapply exclusive_child; [exact He|]. apply ch_prop with k. now apply bm_get_In.
      + intros k j r Hi Hg Ha. eapply IHa; eauto. eapply exclusive_child; [exact He|]. subst. constructor.
    - intros d l r j Hi Hv IH He. pose proof He as [Ha _]. specialize (Ha _ _ eq_refl). apply in_split in Hi as (l1 & l2 & ->).
      destruct (pairs_split _ _ _ _ Ha) as [H1 H2]. apply am_oneof.
      + apply IH. eapply exclusive_child; [exact He|]. constructor. apply in_or_app. right. now left.
      + intros r' Hr'. apply apart_rejects with w r; [|exact Hv]. apply in_app_or in Hr' as [Hr'|Hr']; [apply apart_sym|]; auto.
    - intros d l r j Hi _ IH He. apply am_anyof with r; [exact Hi|]. apply IH. eapply exclusive_child; [exact He|]. now constructor.
    - intros d l j _ IH He. constructor. intros r Hi. apply IH; [exact Hi|]. eapply exclusive_child; [exact He|]. now constructor.
  Qed.
End Readings.
Lemma readings_agree S r j : (forall n m, bm_get n S = Some m -> exclusive False S m) -> exclusive_ref False S r -> (valid S r j <-> accepts S r j).
Proof.
  intros HS He. split; intros H; [|now apply accepts_valid]. apply (within_accepts False S HS); [now apply valid_within|exact He].
Qed.
Lemma fitting_accepted S r j : (forall n m, bm_get n S = Some m -> exclusive True S m) -> exclusive_ref True S r -> fits S r j -> accepts S r j.
Proof. intros HS He H. apply (within_accepts True S HS); [now apply fits_within|exact He]. Qed.
