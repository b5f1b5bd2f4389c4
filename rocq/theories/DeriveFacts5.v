(** Consequences of the descriptions of derived schemas. *)
From Verif Require Import Attr AttrSpec AttrFacts Ast AstFacts Derive DeriveSpec DeriveFacts DeriveFacts2 DeriveFacts3 DeriveFacts4
  Schema SchemaSpec Gen GenSpec GenFacts CaseSpec CaseFacts.
From Coq Require Import Arith Lia.

(** *** last_value *)

Lemma last_value_In {V} k (l : list (str * V)) : last_value k l <> None <-> In k (map fst l).
Proof.
  induction l as [|[k' v] l IH]; cbn; [tauto|]. destruct (last_value k l) eqn:E.
  - split; [|discriminate]. intros _. right. apply IH. discriminate.
  - destruct (str_eq_dec k' k) as [->|Hn].
    + split; auto. discriminate.
    + split; [congruence|]. intros [H|H]; [congruence|]. apply IH in H. congruence.
Qed.

Lemma last_value_NoDup {V} (l : list (str * V)) j k v : NoDup (map fst l) -> nth_error l j = Some (k, v) -> last_value k l = Some v.
Proof.
  revert j. induction l as [|[k' v'] l IH]; intros j Hn Hj; [destruct j; discriminate|].
  cbn in Hn. inversion Hn as [|? ? Hnin Hn']; subst. cbn. destruct j as [|j]; cbn in Hj.
  - injection Hj as -> ->. destruct (last_value k l) eqn:E.
    + exfalso. apply Hnin. apply last_value_In. congruence.
    + destruct (str_eq_dec k k); congruence.
  - now rewrite (IH _ Hn' Hj).
Qed.

Lemma nth_combine {X Y} (l1 : list X) (l2 : list Y) j x y : nth_error l1 j = Some x -> nth_error l2 j = Some y ->
  nth_error (combine l1 l2) j = Some (x, y).
Proof.
  revert l2 j. induction l1 as [|a l1 IH]; intros [|b l2] [|j]; cbn; try discriminate; auto; congruence.
Qed.

Lemma fst_combine {X Y} (l1 : list X) (l2 : list Y) : length l1 = length l2 -> map fst (combine l1 l2) = l1.
Proof. revert l2. induction l1 as [|a l1 IH]; intros [|b l2]; cbn; try discriminate; auto. intros [= H]. now rewrite IH. Qed.

Section Facts.
  Variable pe pp : str -> bool.
  Variable uni : N -> bool.
  Variable ev : str -> str.
  Notation said := (said pe pp).
  Notation takes := (takes pe pp).
  Notation flag_takes := (flag_takes pe pp).
  Notation acceptable := (acceptable pe pp).
  Notation derive := (derive pe pp uni ev).

  Lemma field_refs_length E outer fs cx rs cx' : field_refs pe pp ev E outer fs cx rs cx' -> length fs = length rs.
  Proof. induction 1; cbn; congruence. Qed.

  Lemma has_rule_unique pos l r1 r2 : acceptable pos l -> has_rule pe pp pos l r1 -> has_rule pe pp pos l r2 -> r1 = r2.
  Proof. intros Ha. eapply has_rule_fun'; eauto. Qed.

  Lemma field_named_unique {A} r k (f : field_syn A) n1 n2 : acceptable PField (fs_attrs f) ->
    field_named pe pp r k f n1 -> field_named pe pp r k f n2 -> n1 = n2.
  Proof.
    intros Ha. apply acceptable_takes in Ha as [s Hs]. pose proof (ss_rename _ _ _ _ _ Hs) as Hr.
    intros [H1|H1 H1'] [H2|H2 H2'].
    - apply Hr in H1, H2. congruence.
    - now destruct (H2 n1).
    - now destruct (H1 n2).
    - congruence.
  Qed.
  Lemma variant_named_unique {A} r (v : variant_syn A) n1 n2 : acceptable PVariant (vs_attrs v) ->
    variant_named pe pp uni r v n1 -> variant_named pe pp uni r v n2 -> n1 = n2.
  Proof.
    intros Ha. apply acceptable_takes in Ha as [s Hs]. pose proof (ss_rename _ _ _ _ _ Hs) as Hr.
    intros [H1|H1 H1'] [H2|H2 H2'].
    - apply Hr in H1, H2. congruence.
    - now destruct (H2 n1).
    - now destruct (H1 n2).
    - congruence.
  Qed.

  (** the names in a list of serialised fields *)
  Lemma serialised_fields_names {A} r k0 (fs : list (field_syn A)) l : (forall f, In f fs -> acceptable PField (fs_attrs f)) ->
    serialised_fields pe pp r k0 fs l -> forall n,
    In n (map fst l) <-> exists k f, nth_error fs k = Some f /\ ~ field_skipped pe pp f /\ field_named pe pp r (k0 + k) f n.
  Proof.
    intros Ha H. induction H as [i|i f fs l Hs H IH|i f n0 fs l Hs Hn H IH]; intros n.
    - split; [intros []|]. intros ([|k] & f & Hk & _); discriminate.
    - rewrite IH by (intros; apply Ha; now right). split.
      + intros (k & g & Hk & Hg). exists (S k), g. rewrite Nat.add_succ_r. auto.
      + intros ([|k] & g & Hk & Hns & Hg).
        * injection Hk as <-. contradiction.
        * exists k, g. rewrite Nat.add_succ_r in Hg. auto.
    - cbn [map fst In]. rewrite IH by (intros; apply Ha; now right). split.
      + intros [->|(k & g & Hk & Hg)].
        * exists 0, f. rewrite Nat.add_0_r. auto.
        * exists (S k), g. rewrite Nat.add_succ_r. auto.
      + intros ([|k] & g & Hk & Hns & Hg).
        * left. injection Hk as <-. rewrite Nat.add_0_r in Hg. eapply field_named_unique; eauto. apply Ha. now left.
        * right. exists k, g. rewrite Nat.add_succ_r in Hg. auto.
  Qed.
  Lemma serialised_variants_names {A} r (vs : list (variant_syn A)) l : (forall v, In v vs -> acceptable PVariant (vs_attrs v)) ->
    serialised_variants pe pp uni r vs l -> forall n,
    In n (map fst l) <-> exists v, In v vs /\ ~ variant_skipped pe pp v /\ variant_named pe pp uni r v n.
  Proof.
    intros Ha H. induction H as [|v vs l Hs H IH|v n0 vs l Hs Hn H IH]; intros n.
    - split; [intros []|]. intros (v & [] & _).
    - rewrite IH by (intros; apply Ha; now right). split.
      + intros (w & Hw & Hg). exists w. cbn. auto.
      + intros (w & [->|Hw] & Hns & Hg); [contradiction|]. eauto.
    - cbn [map fst In]. rewrite IH by (intros; apply Ha; now right). split.
      + intros [->|(w & Hw & Hg)]; [exists v|exists w]; cbn; auto.
      + intros (w & [->|Hw] & Hns & Hg).
        * left. eapply variant_named_unique; eauto. apply Ha. now left.
        * right. eauto.
  Qed.

  Notation named_by := (named_by pe pp).

  Lemma object_keys E outer r fs cx m cx' : (forall f, In f fs -> acceptable PField (fs_attrs f)) ->
    object_schema pe pp ev E outer r fs cx m cx' -> exists o, object_of m = Some o /\
    forall n, bm_get n (mo_properties o) <> None <-> named_by r fs n.
  Proof.
    intros Ha (l & rs & o & Hl & Hr & Ho & _ & Hg & _). exists o. split; auto. intros n. rewrite Hg, last_value_In.
    rewrite fst_combine.
    - rewrite (serialised_fields_names _ _ _ _ Ha Hl). reflexivity.
    - apply field_refs_length in Hr. rewrite map_length in Hr. now rewrite map_length.
  Qed.

  Lemma derive_acceptable i td : derive i = DOk td -> attributes_acceptable pe pp i.
  Proof. intros H. now destruct (proj1 (derive_ok_iff pe pp uni ev i) (ex_intro _ td H)). Qed.

  Section Returned.
    Variables (E : env) (id : tid) (i : derive_input ty) (cx : components) (m : model) (cx' : components).
    Hypothesis Hd : derive i = DOk (E id).
    Hypothesis Hret : schema_returns E (TNamed id) cx m cx'.

    Let Hacc : attributes_acceptable pe pp i := derive_acceptable _ _ Hd.

    Lemma struct_names fs r : di_data i = DaStruct (FNamed fs) -> has_rule pe pp (PContainer DkNamed) (di_attrs i) r ->
      exists o, object_of m = Some o /\ forall n, bm_get n (mo_properties o) <> None <-> named_by r fs n.
    Proof.
      intros Hs Hr. destruct (struct_described _ _ _ _ _ _ _ _ _ _ Hd Hret _ Hs) as (_ & _ & r' & Hr' & Ho).
      assert (r = r') as <-.
      { eapply has_rule_unique; eauto. pose proof (Hacc _ _ (aa_container i)) as H. rewrite Hs in H. exact H. }
      eapply object_keys; eauto. intros f Hf. apply Hacc. eapply aa_field; eauto.
    Qed.

    Lemma struct_members fs : di_data i = DaStruct (FNamed fs) ->
      exists r l rs o, has_rule pe pp (PContainer DkNamed) (di_attrs i) r /\ serialised_fields pe pp r 0 fs l /\
        field_refs pe pp ev E false (map snd l) cx rs cx' /\
        object_of m = Some o /\ (forall n, bm_get n (mo_properties o) <> None <-> In n (map fst l)) /\
        required_names pe pp l (mo_required o) /\ mo_additional o = None /\
        (NoDup (map fst l) -> forall j n f ref, nth_error l j = Some (n, f) -> nth_error rs j = Some ref ->
           bm_get n (mo_properties o) = Some ref).
    Proof.
      intros Hs. destruct (struct_described _ _ _ _ _ _ _ _ _ _ Hd Hret _ Hs) as (_ & _ & r & Hr & l & rs & o & Hl & Hrs & Ho & _ & Hg & Hreq & Had).
      assert (Hlen : length (map fst l) = length rs).
      { apply field_refs_length in Hrs. rewrite map_length in Hrs. now rewrite map_length. }
      exists r, l, rs, o. split; auto. split; auto. split; auto. split; auto. split.
      - intros n. now rewrite Hg, last_value_In, fst_combine.
      - split; auto. split; auto. intros Hnd j n f ref Hj Href. rewrite Hg.
        eapply last_value_NoDup; [now rewrite fst_combine|]. apply nth_combine; eauto. now rewrite nth_error_map, Hj.
    Qed.

    Lemma field_refs_nth outer fs cx0 rs cx1 j f ref : field_refs pe pp ev E outer fs cx0 rs cx1 ->
      nth_error fs j = Some f -> nth_error rs j = Some ref ->
      exists b p cxa cxb, flag_takes PField (fs_attrs f) SInline b /\ params_said pe pp ev PField (fs_attrs f) p /\
        field_ref pe pp E f (outer || b) p cxa ref cxb.
    Proof.
      intros H. revert j. induction H as [|f0 fs cx0 b p r cx1 rs cx2 Hb Hp Hf H IH]; intros [|j]; cbn; try discriminate.
      - intros [= <-] [= <-]. eauto 8.
      - apply IH.
    Qed.

    (** a flagged field never shows its type *)
    Lemma flagged_field f b p cxa r cxb t : field_ref pe pp E f b p cxa r cxb -> acceptable PField (fs_attrs f) ->
      said PField (fs_attrs f) (SType t) ->
      cxb = cxa /\ (t = ETAny -> r = Any) /\
      (t <> ETAny -> exists nl mm, r = Inline mm /\ flag_takes PField (fs_attrs f) SNullable nl /\ explicit_model t nl p mm).
    Proof.
      intros Hf Ha Ht. apply acceptable_takes in Ha as [s Hs]. pose proof (ss_types _ _ _ _ _ Hs) as Hty.
      destruct Hf as [Hany|t' nl mm Ht' Hnl He|r cxb Hno _].
      - split; auto. split; auto. intros Hn. apply Hty in Ht, Hany. congruence.
      - assert (t' = t) as -> by (apply Hty in Ht, Ht'; congruence). split; auto. split.
        + intros ->. destruct He as (_ & _ & _ & []).
        + intros _. eauto.
      - now destruct (Hno t).
    Qed.

    Lemma struct_flagged fs l r k n f t : di_data i = DaStruct (FNamed fs) ->
      has_rule pe pp (PContainer DkNamed) (di_attrs i) r -> serialised_fields pe pp r 0 fs l -> NoDup (map fst l) ->
      nth_error l k = Some (n, f) -> said PField (fs_attrs f) (SType t) ->
      exists o, object_of m = Some o /\
        (t = ETAny -> bm_get n (mo_properties o) = Some Any) /\
        (t <> ETAny -> exists p nl mm, params_said pe pp ev PField (fs_attrs f) p /\ flag_takes PField (fs_attrs f) SNullable nl /\
           bm_get n (mo_properties o) = Some (Inline mm) /\ explicit_model t nl p mm).
    Proof.
      intros Hs Hr Hl Hnd Hk Ht. destruct (struct_members _ Hs) as (r' & l' & rs & o & Hr' & Hl' & Hrs & Ho & _ & _ & _ & Hnth).
      assert (r = r') as <-.
      { eapply has_rule_unique; eauto. pose proof (Hacc _ _ (aa_container i)) as H. rewrite Hs in H. exact H. }
      assert (l = l') as <-.
      { assert (Haf : forall f, In f fs -> acceptable PField (fs_attrs f)) by (intros g Hg; apply Hacc; eapply aa_field; eauto).
        clear -Hl Hl' Haf. revert l' Hl'. induction Hl as [x|x g fs l Hs H IH|x g n0 fs l Hs Hn H IH]; intros l' Hl'; inversion Hl'; subst; try contradiction.
        - reflexivity.
        - apply IH; auto. intros; apply Haf; now right.
        - f_equal; [|apply IH; auto; intros; apply Haf; now right]. f_equal. eapply field_named_unique; eauto. apply Haf. now left. }
      exists o. split; auto.
      destruct (nth_error rs k) as [ref|] eqn:Eref.
      2: { apply nth_error_None in Eref. apply field_refs_length in Hrs. rewrite map_length in Hrs.
           assert (k < length l) by (apply nth_error_Some; congruence). lia. }
      assert (Hf : nth_error (map snd l) k = Some f) by now rewrite nth_error_map, Hk.
      destruct (field_refs_nth _ _ _ _ _ _ _ _ Hrs Hf Eref) as (b & p & cxa & cxb & Hb & Hp & Hfr).
      assert (Haf : acceptable PField (fs_attrs f)).
      { apply Hacc. eapply aa_field; eauto. cbn. apply nth_error_In in Hk. clear -Hk Hl.
        induction Hl as [x|x g fs l Hs H IH|x g n0 fs l Hs Hn H IH]; [destruct Hk| |].
        - right. auto.
        - destruct Hk as [[= <- <-]|Hk]; [now left|right; auto]. }
      destruct (flagged_field _ _ _ _ _ _ _ Hfr Haf Ht) as (_ & H1 & H2).
      rewrite (Hnth Hnd _ _ _ _ Hk Eref). split.
      - intros Hx. f_equal. auto.
      - intros Hx. destruct (H2 Hx) as (nl & mm & -> & Hnl & He). eauto 8.
    Qed.

    Section Enum.
      Variable vs : list (variant_syn ty).
      Hypothesis Hvs : di_data i = DaEnum vs.

      Lemma unit_enum_names r : (forall v, In v vs -> unit_variant v) -> ~ said (PContainer DkEnum) (di_attrs i) SRepr ->
        has_rule pe pp (PContainer DkEnum) (di_attrs i) r ->
        exists names, enum_of m = Some names /\
          forall n, In n names <-> exists v, In v vs /\ ~ variant_skipped pe pp v /\ variant_named pe pp uni r v n.
      Proof.
        intros Hu Hr Hrule. destruct (unit_enum_described _ _ _ _ _ _ _ _ _ _ Hd Hret _ Hvs Hu Hr) as (l & (r' & Hr' & Hl) & Hn & _).
        assert (r = r') as <-.
        { eapply has_rule_unique; eauto. pose proof (Hacc _ _ (aa_container i)) as H. rewrite Hvs in H. exact H. }
        exists (map fst l). split; [apply Hn|]. apply serialised_variants_names; auto.
        intros v Hv. apply Hacc. eapply aa_variant; eauto.
      Qed.

      Lemma variants_sub r l : serialised_variants pe pp uni r vs l -> forall n v, In (n, v) l -> In v vs.
      Proof.
        intros H. clear Hvs. induction H as [|v vs l Hs H IH|v n0 vs l Hs Hn H IH]; intros n w Hin; [destruct Hin| |].
        - right. eauto.
        - destruct Hin as [[= <- <-]|Hin]; [now left|right; eauto].
      Qed.

      Lemma in_order_Forall2 {X Rr} (rel : X -> components -> Rr -> components -> Prop) (P : X -> Rr -> Prop) l cx0 rs cx1 :
        in_order rel l cx0 rs cx1 -> (forall x c1 r c2, In x l -> rel x c1 r c2 -> P x r) -> Forall2 P l rs.
      Proof.
        induction 1 as [|x l c0 r c1 rs c2 Hx H IH]; intros HP; constructor.
        - eapply HP; eauto. now left.
        - apply IH. intros. eapply HP; eauto. now right.
      Qed.

      Notation struct_alternative := (struct_alternative pe pp).

      Lemma payload_keys v fs c1 am c2 r : In v vs -> vs_fields v = FNamed fs -> struct_payload pe pp ev E v fs c1 am c2 ->
        has_rule pe pp PVariant (vs_attrs v) r -> exists o, object_of am = Some o /\
        forall n, bm_get n (mo_properties o) <> None <-> named_by r fs n.
      Proof.
        intros Hin Hf (b & r' & _ & Hr' & _ & _ & Ho) Hr.
        assert (r = r') as <- by (eapply has_rule_unique; eauto; apply Hacc; eapply aa_variant; eauto).
        eapply object_keys; eauto. intros f Hff. apply Hacc. eapply aa_variant_field; eauto. now rewrite Hf.
      Qed.

      Lemma plain_struct_alternative rep nv c1 ref c2 : In (snd nv) vs -> rep = RepExternal \/ rep = RepUntagged ->
        alternative_of pe pp ev E rep nv c1 ref c2 -> struct_alternative nv (fun _ => False) ref.
      Proof.
        intros Hin Hrep Ha fs r Hf Hr. unfold alternative_of in Ha.
        inversion Ha as [? ? ? ? Hx|? ? ? ? ? ? ? _ Hx|? ? ? ? ? ? ? _ Hx|? ? ? fs' ? am ? _ Hx Hp|tg ct ? ? ? ? ? ? Hx]; subst;
          try (rewrite Hf in Hx; discriminate).
        - rewrite Hf in Hx. injection Hx as <-. destruct (payload_keys _ _ _ _ _ _ Hin Hf Hp Hr) as (o & Ho & Hk).
          exists am, o. split; auto. split; auto. intros n. rewrite Hk. tauto.
        - destruct Hrep; discriminate.
      Qed.

      Lemma external_structs w : In w vs -> ~ unit_variant w -> represents pe pp (di_attrs i) RepExternal ->
        exists l rs o m1, enum_variants pe pp uni i vs l /\ object_of m = Some o /\ mo_additional o = Some (Inline m1) /\
          alternatives_of m1 = Some rs /\ Forall2 (fun nv => struct_alternative nv (fun _ => False)) l rs.
      Proof.
        intros Hw Hnu Hrep. destruct (external_enum_described _ _ _ _ _ _ _ _ _ _ Hd Hret _ Hvs _ Hw Hnu Hrep)
          as (l & rs & o & m1 & Hl & Hio & Ho & _ & _ & Hm1 & _ & Hrs & _).
        exists l, rs, o, m1. split; auto. split; auto. split; auto. split; auto.
        eapply in_order_Forall2; eauto. intros [n v] c1 ref c2 Hin Ha.
        eapply (plain_struct_alternative RepExternal); [|auto|exact Ha].
        destruct Hl as (r & _ & Hl). cbn. eapply variants_sub; eauto.
      Qed.

      Lemma untagged_structs : represents pe pp (di_attrs i) RepUntagged ->
        exists l rs, enum_variants pe pp uni i vs l /\
          alternatives_of m = Some rs /\ Forall2 (fun nv => struct_alternative nv (fun _ => False)) l rs.
      Proof.
        intros Hrep. destruct (untagged_enum_described _ _ _ _ _ _ _ _ _ _ Hd Hret _ Hvs Hrep)
          as (l & rs & Hl & Hio & _ & Hrs & _).
        exists l, rs. split; auto. split; auto.
        eapply in_order_Forall2; eauto. intros [n v] c1 ref c2 Hin Ha.
        eapply (plain_struct_alternative RepUntagged); [|auto|exact Ha].
        destruct Hl as (r & _ & Hl). cbn. eapply variants_sub; eauto.
      Qed.

      Lemma internal_structs w tag : In w vs -> ~ unit_variant w -> represents pe pp (di_attrs i) (RepInternal tag) ->
        exists l rs, enum_variants pe pp uni i vs l /\
          alternatives_of m = Some rs /\ Forall2 (fun nv => struct_alternative nv (fun n => n = tag)) l rs.
      Proof.
        intros Hw Hnu Hrep. destruct (internal_enum_described _ _ _ _ _ _ _ _ _ _ Hd Hret _ Hvs _ _ Hw Hnu Hrep)
          as (l & rs & Hl & Hio & _ & Hrs & _).
        exists l, rs. split; auto. split; auto.
        eapply in_order_Forall2; eauto. intros [n v] c1 ref c2 Hin (pm & am & Hp & -> & Ht) fs r Hf Hr. cbn [fst snd] in *.
        assert (Hv : In v vs) by (destruct Hl as (rl & _ & Hl); eapply variants_sub; eauto).
        inversion Hp as [pm' o Hx|g p q m0 cxx Hx|fs' pm' cxx Hx Hpay]; subst; try (rewrite Hf in Hx; discriminate).
        rewrite Hf in Hx. injection Hx as <-. destruct (payload_keys _ _ _ _ _ _ Hv Hf Hpay Hr) as (o & Ho & Hk).
        destruct Ht as [o1 o2 t Ho1 Hno Ho2 Hg Hn Hrest _ _ _ _|Hyes Heqm]; [|subst am].
        - assert (o1 = o) as -> by congruence. exists am, o2. split; auto. split; auto. intros k.
          destruct (str_eq_dec k tag) as [->|Hkt].
          + rewrite Hg. split; [now right|discriminate].
          + rewrite (Hrest _ Hkt), Hk. tauto.
        - exists pm, o. split; auto. split; auto. intros k. rewrite Hk. split; [tauto|]. intros [?|Heqk]; auto. subst k.
          apply Hk. eapply Hyes; eauto.
      Qed.

      (** *** which alternatives carry the tag *)
      Lemma unit_carries tag n v c1 ref c2 : unit_variant v ->
        internal_alternative pe pp ev E tag (n, v) c1 ref c2 -> carries_tag tag n ref.
      Proof.
        intros Hu (pm & am & Hp & -> & Ht). cbn [fst snd] in *.
        inversion Hp as [pm' o Hx Hdesc Hnull Ho Hobj|g p q m0 cxx Hx|fs' pm' cxx Hx]; subst; try (rewrite Hu in Hx; discriminate).
        destruct Ht as [o1 o2 t Ho1 Hno Ho2 Hg Hn Hrest Hreq _ _ _|Hyes Heqm]; [|subst am].
        - exists am, o2, t. split; auto. split; auto. split; auto. split; auto. rewrite Hreq. apply in_or_app. right. now left.
        - exfalso. apply (Hyes _ Ho). reflexivity.
      Qed.

      Lemma struct_carries tag n v fs r c1 ref c2 : In v vs -> vs_fields v = FNamed fs -> has_rule pe pp PVariant (vs_attrs v) r ->
        ~ named_by r fs tag -> internal_alternative pe pp ev E tag (n, v) c1 ref c2 -> carries_tag tag n ref.
      Proof.
        intros Hv Hf Hr Hnn (pm & am & Hp & -> & Ht). cbn [fst snd] in *.
        inversion Hp as [pm' o Hx|g p q m0 cxx Hx|fs' pm' cxx Hx Hpay]; subst; try (rewrite Hf in Hx; discriminate).
        rewrite Hf in Hx. injection Hx as <-. destruct (payload_keys _ _ _ _ _ _ Hv Hf Hpay Hr) as (o & Ho & Hk).
        destruct Ht as [o1 o2 t Ho1 Hno Ho2 Hg Hn Hrest Hreq _ _ _|Hyes Heqm]; [|subst am].
        - exists am, o2, t. split; auto. split; auto. split; auto. split; auto. rewrite Hreq. apply in_or_app. right. now left.
        - exfalso. apply Hnn, Hk. eapply Hyes; eauto.
      Qed.

      Lemma internal_tagged w tag : In w vs -> ~ unit_variant w -> represents pe pp (di_attrs i) (RepInternal tag) ->
        exists l rs, enum_variants pe pp uni i vs l /\ alternatives_of m = Some rs /\
          Forall2 (fun nv ref =>
            (unit_variant (snd nv) -> carries_tag tag (fst nv) ref) /\
            (forall fs r, vs_fields (snd nv) = FNamed fs -> has_rule pe pp PVariant (vs_attrs (snd nv)) r ->
               ~ named_by r fs tag -> carries_tag tag (fst nv) ref)) l rs.
      Proof.
        intros Hw Hnu Hrep. destruct (internal_enum_described _ _ _ _ _ _ _ _ _ _ Hd Hret _ Hvs _ _ Hw Hnu Hrep)
          as (l & rs & Hl & Hio & _ & Hrs & _).
        exists l, rs. split; auto. split; auto.
        eapply in_order_Forall2; eauto. intros [n v] c1 ref c2 Hin Ha. cbn [fst snd].
        assert (Hv : In v vs) by (destruct Hl as (rl & _ & Hl); eapply variants_sub; eauto).
        split.
        - intros Hu. eapply unit_carries; eauto.
        - intros fs r Hf Hr Hn. eapply struct_carries; eauto.
      Qed.
    End Enum.
  End Returned.

  (** *** Representations *)
  Lemma represents_total l : acceptable (PContainer DkEnum) l -> exists rep, represents pe pp l rep.
  Proof.
    intros Ha. apply acceptable_takes in Ha as [s []]. exists (rep_of (decide_tag (s_untagged s) (s_tag s) (s_content s))).
    now apply (represents_iff pe pp _ _ _ _ _ ss_untagged ss_tag ss_content).
  Qed.
  Lemma represents_unique l r1 r2 : acceptable (PContainer DkEnum) l -> represents pe pp l r1 -> represents pe pp l r2 -> r1 = r2.
  Proof.
    intros Ha. apply acceptable_takes in Ha as [s []].
    pose proof (fun rep => represents_iff pe pp _ _ _ _ rep ss_untagged ss_tag ss_content) as Hr.
    intros H1 H2. apply Hr in H1, H2. congruence.
  Qed.

  (** *** Errors *)
  Lemma unacceptable_rejected i : ~ attributes_acceptable pe pp i -> (forall td, derive i <> DOk td) /\
    (~ odd_name i -> exists es, derive i = DErr es /\ es <> []).
  Proof.
    intros Hn. split.
    - intros td H. now apply derive_acceptable in H.
    - intros Ho. destruct (derive i) as [td|es|] eqn:E.
      + now apply derive_acceptable in E.
      + exists es. split; auto. now apply derive_DErr in E.
      + apply derive_panic_odd in E as [E|(E & _)]; contradiction.
  Qed.
  Lemma unsupported_rejected i : unsupported pe pp i -> (forall td, derive i <> DOk td) /\
    (~ odd_name i -> exists es, derive i = DErr es /\ es <> []).
  Proof.
    intros Hn. split.
    - intros td H. now destruct (proj1 (derive_ok_iff pe pp uni ev i) (ex_intro _ td H)) as (_ & Hx & _).
    - intros Ho. destruct (derive i) as [td|es|] eqn:E.
      + now destruct (proj1 (derive_ok_iff pe pp uni ev i) (ex_intro _ td E)) as (_ & Hx & _).
      + exists es. split; auto. now apply derive_DErr in E.
      + apply derive_panic_odd in E as [E|(_ & E & _)]; contradiction.
  Qed.
  Lemma unknown_opg_unacceptable i pos l its n : attrs_at i pos l -> written l its -> In (FromOpg, n) its -> unknown_opg pos n ->
    ~ attributes_acceptable (A := ty) pe pp i.
  Proof.
    intros Ha Hw Hin Hu H. destruct (H _ _ Ha) as (its' & Hw' & Hm & _). rewrite (written_fun _ _ _ Hw' Hw) in *.
    eapply Hm; eauto. now constructor.
  Qed.

  Lemma derive_rearranged i1 i2 td : input_rel (fun _ => rearranged) i1 i2 -> derive i1 = DOk td -> derive i2 = DOk td.
  Proof. apply ok_derive. intros pos l1 l2 s. apply parse_rearranged. Qed.
  Lemma derive_without_unknown i1 i2 : input_rel without_unknown i1 i2 -> derive i1 = derive i2.
  Proof. apply eq_derive. intros pos l1 l2. apply parse_without_unknown. Qed.
  Lemma derive_without_unknown_rule i1 i2 : input_rel (fun _ => without unknown_rule) i1 i2 -> derive i1 = derive i2.
  Proof. apply eq_derive. intros pos l1 l2. apply parse_without. intros n. apply unknown_rule_ignored. Qed.

  Lemma input_rel_sym (R : position -> list attribute -> list attribute -> Prop) (i1 i2 : derive_input ty) :
    (forall pos l1 l2, R pos l1 l2 -> R pos l2 l1) -> input_rel R i1 i2 -> input_rel R i2 i1.
  Proof.
    intros Hs.
    assert (Hf : forall fs1 fs2 : list (field_syn ty), Forall2 (field_rel R) fs1 fs2 -> Forall2 (field_rel R) fs2 fs1).
    { induction 1 as [|f1 f2 ? ? H]; constructor; auto. destruct H. constructor. auto. }
    assert (Hfs : forall f1 f2 : fields_syn ty, fields_rel R f1 f2 -> fields_rel R f2 f1).
    { destruct 1; constructor; auto. }
    destruct 1 as [l1 l2 i d1 d2 Hl Hd].
    assert (Hsh : shape d1 = shape d2) by exact (rel_shape R _ _ Hd).
    constructor.
    - rewrite <- Hsh. auto.
    - destruct Hd as [vs1 vs2 H|f1 f2 H|]; constructor; auto.
      induction H as [|v1 v2 ? ? H]; constructor; auto. destruct H. constructor; auto.
  Qed.
  Lemma rearranged_sym l1 l2 : rearranged l1 l2 -> rearranged l2 l1.
  Proof. intros (a & b & H1 & H2 & H). exists b, a. auto using Permutation.Permutation_sym. Qed.
  Lemma derive_rearranged_iff i1 i2 td : input_rel (fun _ => rearranged) i1 i2 -> (derive i1 = DOk td <-> derive i2 = DOk td).
  Proof.
    intros H. split; apply derive_rearranged; auto. apply input_rel_sym; auto. intros _. apply rearranged_sym.
  Qed.

  (** *** Names of derived types *)
  Lemma derive_name i td : derive i = DOk td ->
    td_ident td = di_ident i /\ flag_takes (PContainer (shape (di_data i))) (di_attrs i) SInline (td_inline td).
  Proof.
    intros H. destruct (derive_inv _ _ _ _ _ _ H) as (c & Hc & _ & Hid & Hin). split; auto. rewrite Hin.
    exact (cp_inline _ _ _ _ _ Hc).
  Qed.

  (** *** Single values *)
  Lemma said_single pos l x y : acceptable pos l -> said pos l x -> said pos l y -> key_of x = key_of y -> x = y.
  Proof.
    intros (its & Hw & _ & Hr) (its1 & f1 & n1 & Hw1 & Hin1 & H1) (its2 & f2 & n2 & Hw2 & Hin2 & H2) Hk.
    rewrite (written_fun _ _ _ Hw1 Hw) in Hin1. rewrite (written_fun _ _ _ Hw2 Hw) in Hin2. clear Hw1 Hw2.
    apply in_split in Hin1 as (a & b & ->). apply in_app_iff in Hin2 as [Hin2|[Heq|Hin2]].
    - apply in_split in Hin2 as (a1 & a2 & ->). destruct Hr.
      exists a1, f2, n2, a2, f1, n1, b, y, x. split; [now rewrite <- app_assoc|]. auto.
    - injection Heq as -> ->. apply action_says_iff in H1, H2. congruence.
    - apply in_split in Hin2 as (b1 & b2 & ->). destruct Hr.
      exists a, f1, n1, b1, f2, n2, b2, x, y. auto.
  Qed.
  Lemma derive_single i td pos l x y : derive i = DOk td -> attrs_at i pos l -> said pos l x -> said pos l y ->
    key_of x = key_of y -> x = y.
  Proof. intros Hd Ha. apply said_single. eapply derive_acceptable; eauto. Qed.

  Lemma errors_exactly i : ~ odd_name i -> ~ unsupported pe pp i ->
    ((exists es, derive i = DErr es /\ es <> []) <-> ~ attributes_acceptable pe pp i).
  Proof.
    intros Ho Hu. split.
    - intros (es & He & _). apply derive_DErr in He as [_ [H|H]]; auto.
    - intros H. apply unacceptable_rejected in H as [_ H]. auto.
  Qed.

  Lemma unknown_opg_rejected i pos l its n : attrs_at i pos l -> written l its -> In (FromOpg, n) its -> unknown_opg pos n ->
    (forall td, derive i <> DOk td) /\ (~ odd_name i -> exists es, derive i = DErr es /\ es <> []).
  Proof. intros. apply unacceptable_rejected. eapply unknown_opg_unacceptable; eauto. Qed.

  Lemma names_determined :
    (forall A r1 r2 k (f : field_syn A) n1 n2, acceptable PField (fs_attrs f) -> r1 = r2 ->
       field_named pe pp r1 k f n1 -> field_named pe pp r2 k f n2 -> n1 = n2) /\
    (forall A r1 r2 (v : variant_syn A) n1 n2, acceptable PVariant (vs_attrs v) -> r1 = r2 ->
       variant_named pe pp uni r1 v n1 -> variant_named pe pp uni r2 v n2 -> n1 = n2) /\
    (forall A r1 r2 k (f : field_syn A) s n, acceptable PField (fs_attrs f) ->
       said PField (fs_attrs f) (SRename s) -> field_named pe pp r1 k f n -> n = s /\ field_named pe pp r2 k f s) /\
    (forall A r1 r2 (v : variant_syn A) s n, acceptable PVariant (vs_attrs v) ->
       said PVariant (vs_attrs v) (SRename s) -> variant_named pe pp uni r1 v n -> n = s /\ variant_named pe pp uni r2 v s).
  Proof.
    split; [|split; [|split]].
    - intros A r1 r2 k f n1 n2 Ha -> [H1|H1 H1'] [H2|H2 H2'].
      + now assert (SRename n1 = SRename n2) as [= ->] by (eapply said_single; eauto).
      + now destruct (H2 n1).
      + now destruct (H1 n2).
      + congruence.
    - intros A r1 r2 v n1 n2 Ha -> [H1|H1 H1'] [H2|H2 H2'].
      + now assert (SRename n1 = SRename n2) as [= ->] by (eapply said_single; eauto).
      + now destruct (H2 n1).
      + now destruct (H1 n2).
      + congruence.
    - intros A r1 r2 k f s n Ha Hs Hn. split; [|now apply fn_explicit]. destruct Hn as [H1|H1 _]; [|now destruct (H1 s)].
      now assert (SRename n = SRename s) as [= ->] by (eapply said_single; eauto).
    - intros A r1 r2 v s n Ha Hs Hn. split; [|now apply vn_explicit]. destruct Hn as [H1|H1 _]; [|now destruct (H1 s)].
      now assert (SRename n = SRename s) as [= ->] by (eapply said_single; eauto).
  Qed.

  (** *** Deciding what is said, for concrete lists *)
  Lemma said_compute pos l its x : written l its -> (said pos l x <-> In x (flat_map (item_set pe pp pos) its)).
  Proof.
    intros Hw. rewrite in_flat_map. split.
    - intros (its' & f & n & Hw' & Hin & Hs). rewrite (written_fun _ _ _ Hw' Hw) in *. exists (f, n). split; auto.
      now apply item_set_iff.
    - intros ([f n] & Hin & Hs). exists its, f, n. split; auto. split; auto. now apply item_set_iff.
  Qed.

  Fixpoint items_written (l : list attribute) : option (list (attr_from * nested)) :=
    match l with
    | [] => Some []
    | a :: l' =>
        match items_written l' with
        | None => None
        | Some its =>
            match (if is_ident OPG (at_path a) then Some FromOpg
                   else if is_ident SERDE (at_path a) then Some FromSerde
                   else if is_ident REPR (at_path a) then Some FromRepr
                   else None) with
            | None => Some its
            | Some f => match at_meta a with PmList items => Some (map (fun n => (f, n)) items ++ its) | _ => None end
            end
        end
    end.
  Lemma items_written_ok l its : items_written l = Some its -> written l its.
  Proof.
    revert its. induction l as [|a l IH]; intros its; cbn [items_written]; [intros [= <-]; constructor|].
    destruct (items_written l) as [its'|]; [|discriminate]. specialize (IH _ eq_refl).
    destruct (is_ident OPG (at_path a)) eqn:E1; [apply is_ident_iff in E1|].
    { destruct (at_meta a) eqn:Em; try discriminate. intros E. injection E as E. rewrite <- E. apply wr_items; auto. now constructor. }
    destruct (is_ident SERDE (at_path a)) eqn:E2; [apply is_ident_iff in E2|].
    { destruct (at_meta a) eqn:Em; try discriminate. intros E. injection E as E. rewrite <- E. apply wr_items; auto. now constructor. }
    destruct (is_ident REPR (at_path a)) eqn:E3; [apply is_ident_iff in E3|].
    { destruct (at_meta a) eqn:Em; try discriminate. intros E. injection E as E. rewrite <- E. apply wr_items; auto. now constructor. }
    intros E. injection E as <-. apply wr_foreign; auto. intros f [H|H|H]; rewrite H in E1, E2, E3; discriminate.
  Qed.
  Lemma said_decide pos l its x : items_written l = Some its -> (said pos l x <-> In x (flat_map (item_set pe pp pos) its)).
  Proof. intros H. apply said_compute. now apply items_written_ok. Qed.
End Facts.

(** proves or refutes [said] facts about concrete lists *)
Ltac decide_said :=
  repeat match goal with
  | |- context [AttrSpec.said ?a ?b ?p ?l ?x] => rewrite (said_decide a b p l _ x eq_refl)
  | H : context [AttrSpec.said ?a ?b ?p ?l ?x] |- _ => rewrite (said_decide a b p l _ x eq_refl) in H
  end; cbn in *; intuition (try discriminate).

(** raw identifiers *)
Lemma unraw_raw i : unraw (raw i) = unraw i.
Proof. reflexivity. Qed.
Lemma unraw_plain i : (forall j, i <> raw j) -> unraw i = i.
Proof.
  intros H. destruct i as [|a [|b i]]; try reflexivity. cbn [unraw]. destruct (N.eqb_spec a 114) as [-> |]; [|reflexivity].
  destruct (N.eqb_spec b 35) as [-> |]; [|reflexivity]. destruct (H i). reflexivity.
Qed.
Lemma raw_names pe pp uni :
  (forall A r k (f g : field_syn A) i n, fs_ident f = Some (raw i) -> fs_ident g = Some i -> fs_attrs f = fs_attrs g ->
     (field_named pe pp r k f n <-> field_named pe pp r k g n)) /\
  (forall A r (v w : variant_syn A) n, vs_ident v = raw (vs_ident w) -> vs_attrs v = vs_attrs w ->
     (variant_named pe pp uni r v n <-> variant_named pe pp uni r w n)) /\
  (forall A k (f : field_syn A) i n, fs_ident f = Some i -> (forall j, i <> raw j) -> (forall m, ~ said pe pp PField (fs_attrs f) (SRename m)) ->
     (field_named pe pp RNone k f n <-> n = i)) /\
  (forall A (v : variant_syn A) n, (forall j, vs_ident v <> raw j) -> (forall m, ~ said pe pp PVariant (vs_attrs v) (SRename m)) ->
     (variant_named pe pp uni RNone v n <-> n = vs_ident v)).
Proof.
  split; [|split; [|split]].
  - intros A r k f g i n Hf Hg Ha. assert (Hs : source_name k f = source_name k g) by (unfold source_name; now rewrite Hf, Hg).
    split; (intros [H|H1 H2]; [apply fn_explicit; congruence|apply fn_rule; [|congruence]]); [rewrite <- Ha|rewrite Ha]; exact H1.
  - intros A r v w n Hv Ha. assert (Hs : unraw (vs_ident v) = unraw (vs_ident w)) by now rewrite Hv.
    split; (intros [H|H1 H2]; [apply vn_explicit; congruence|apply vn_rule; [|congruence]]); [rewrite <- Ha|rewrite Ha]; exact H1.
  - intros A k f i n Hf Hi Hn. assert (Hs : source_name k f = i) by (unfold source_name; rewrite Hf; now apply unraw_plain). split.
    + intros [H|_ H]; [now destruct (Hn n)|]. rewrite Hs in H. now injection H.
    + intros ->. apply fn_rule; [exact Hn|]. now rewrite Hs.
  - intros A v n Hi Hn. assert (Hs := unraw_plain _ Hi). split.
    + intros [H|_ H]; [now destruct (Hn n)|]. rewrite Hs in H. now injection H.
    + intros ->. apply vn_rule; [exact Hn|]. now rewrite Hs.
Qed.
