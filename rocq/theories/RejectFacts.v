(** Proofs for RejectSpec: what the schemas of the types excluded from SoundSpec never accept. *)
From Coq Require Import List ZArith Lia Bool.
From Verif Require Import Str BMap Case Attr Ast Derive Schema Gen Rust AttrSpec AttrFacts AstFacts DeriveSpec SchemaSpec GenSpec SoundSpec
  SchemaFacts SerFacts GenFacts GenFacts2 GenFacts3 DeriveFacts DeriveFacts2 DeriveFacts3 DeriveFacts4 DeriveFacts5 SoundFacts2 RejectSpec.
Import ListNotations.

Lemma valid_object S m o j : object_of m = Some o -> valid_model S m j ->
  (j = JNull /\ nullable_of m = Some true) \/
  exists ms, j = JObj ms /\ (forall k, In k (mo_required o) -> In k (keys ms)) /\
    (forall k x r, In (k, x) ms -> bm_get k (mo_properties o) = Some r -> valid S r x).
Proof.
  intros Ho Hv. destruct Hv; cbn in Ho; try discriminate.
  - destruct td; try discriminate. now left.
  - right. injection Ho as <-. cbn. eauto 6.
Qed.

Lemma valid_array S m r j : items_of m = Some r -> valid_model S m j ->
  (j = JNull /\ nullable_of m = Some true) \/ exists l, j = JArr l /\ forall x, In x l -> valid S r x.
Proof.
  intros Ho Hv. destruct Hv; cbn in Ho; try discriminate.
  - destruct td; try discriminate. now left.
  - right. injection Ho as <-. eauto.
Qed.

Lemma valid_alternatives S m rs j : alternatives_of m = Some rs -> kind_of m = KOneOf ->
  valid_model S m j <-> exists r, In r rs /\ valid S r j.
Proof.
  destruct m as [d [[n td]|l|l|l]]; cbn; intros Ha Hk; try discriminate; try (destruct td; discriminate).
  injection Ha as ->. split; [intros H; inversion H; subst; eauto|]. intros (r & Hr & Hv). econstructor; eauto.
Qed.

Lemma valid_names S m names j : names_schema names m -> valid_model S m j -> exists s, j = JStr s /\ In s names.
Proof.
  intros (Hk & He & _ & _ & Hn) Hv. destruct Hv; cbn in *; try discriminate. exists x. split; auto.
Qed.

Lemma valid_explicit S t b p m j : explicit_model t b p m -> valid_model S m j <-> of_kind t j \/ (j = JNull /\ b = true).
Proof.
  intros (_ & Hn & He & Hm). destruct m as [d [[n td]|l|l|l]]; try discriminate. cbn in Hn. injection Hn as ->.
  assert (Hk : t <> ETAny) by (intros ->; exact Hm).
  destruct t; try (destruct Hm as (Hm & _)); try contradiction; cbn in Hm; destruct td as [s|s|s| |r|o]; try discriminate.
  all: split; [intros Hv; inversion Hv; subst; cbn; auto|].
  all: intros [Hx|[-> ->]]; [|constructor].
  all: destruct j; cbn in Hx; try contradiction; constructor.
  intros vs Hvs. cbn in He. congruence.
Qed.

Lemma valid_integer S m j : kind_of m = KInteger -> nullable_of m = Some false -> valid_model S m j <-> exists z, j = JInt z.
Proof.
  destruct m as [d [[n td]|l|l|l]]; cbn; intros Hk Hn; try discriminate. injection Hn as ->. destruct td; try discriminate.
  split; [intros Hv; inversion Hv; eauto|]. intros (z & ->). constructor.
Qed.

Lemma valid_null_nullable S m : nullable_of m = Some false -> ~ valid_model S m JNull.
Proof. intros Hn Hv. inversion Hv; subst; cbn in Hn; discriminate. Qed.

Lemma in_order_in {X R} (rel : X -> components -> R -> components -> Prop) l cx rs cx' r :
  in_order rel l cx rs cx' -> In r rs -> exists x c1 c2, In x l /\ rel x c1 r c2.
Proof.
  induction 1 as [|x l cx r0 cx1 rs cx2 Hx _ IH]; intros Hr; [destruct Hr|].
  destruct Hr as [->|Hr]; [exists x, cx, cx1; split; [now left|auto]|].
  destruct (IH Hr) as (x' & c1 & c2 & Hin & Hrel). exists x', c1, c2. split; [now right|auto].
Qed.

Section Reject.
  Variable pe pp : str -> bool.
  Variable uni : N -> bool.
  Variable disc : str -> Z.
  Variable D : tid -> derive_input ty.
  Variable ev : str -> str.
  Variable E : env.
  Notation said := (said pe pp).
  Notation emits := (emits pe pp uni disc D).

  Section Derived.
    Variable id : tid.
    Hypothesis Hd : derive pe pp uni ev (D id) = DOk (E id).
    Let Hacc : attributes_acceptable pe pp (D id) := derive_acceptable _ _ _ _ _ _ Hd.

    Lemma at_container k : shape (di_data (D id)) = k -> acceptable pe pp (PContainer k) (di_attrs (D id)).
    Proof. intros <-. apply Hacc. constructor. Qed.

    Lemma external_unit_rejected vs w n v : di_data (D id) = DaEnum vs -> In w vs -> ~ unit_variant w ->
      enum_variant pe pp uni (D id) RepExternal n v -> unit_variant v ->
      emits (TNamed id) (JStr n) /\ forall s, rejects E (TNamed id) (JStr s).
    Proof.
      intros Hvs Hw Hnu Hv Hu. split; [eapply em_external_unit; eauto|]. intros s cx m cx' Hr S Hval.
      destruct Hv as (vs' & l' & Hvs' & _ & Hrep & _). rewrite Hvs in Hvs'. injection Hvs' as <-.
      destruct (external_enum_described _ _ _ _ _ _ _ _ _ _ Hd Hr vs Hvs w Hw Hnu Hrep) as (l & rs & o & m1 & _ & _ & Ho & _).
      destruct (valid_object _ _ _ _ Ho Hval) as [[H _]|(ms & H & _)]; discriminate.
    Qed.

    Lemma tagged_units_rejected vs rep tag n v : di_data (D id) = DaEnum vs -> (forall w, In w vs -> unit_variant w) ->
      rep = RepInternal tag \/ (exists content, rep = RepAdjacent tag content) -> enum_variant pe pp uni (D id) rep n v ->
      emits (TNamed id) (JObj [(tag, JStr n)]) /\ forall ms, rejects E (TNamed id) (JObj ms).
    Proof.
      intros Hvs Hall Hrep Hv. pose proof Hv as (vs' & l' & Hvs' & Hni & _ & (r & _ & Hl) & Hin).
      rewrite Hvs in Hvs'. injection Hvs' as <-.
      assert (Hnr : ~ said (PContainer DkEnum) (di_attrs (D id)) SRepr) by (intros H; apply Hni; split; auto).
      split.
      - assert (Hu : unit_variant v) by (apply Hall; eapply serialised_variants_In; eauto).
        destruct Hrep as [->|[content ->]]; [eapply em_internal_unit; eauto|eapply em_adjacent_unit; eauto].
      - intros ms cx m cx' Hr S Hval.
        destruct (unit_enum_described _ _ _ _ _ _ _ _ _ _ Hd Hr vs Hvs Hall Hnr) as (l & _ & Hn & _).
        destruct (valid_names _ _ _ _ Hn Hval) as (s & H & _). discriminate.
    Qed.

    (** an enum written as an integer: exactly the integers, if a serialised variant has its discriminant written *)
    Lemma repr_alternatives_valid {A} S (l : list (str * variant_syn A)) rs j : repr_alternatives l rs ->
      (exists r, In r rs /\ valid S r j) <-> (exists z, j = JInt z) /\ exists n v, In (n, v) l /\ vs_discriminant v <> None.
    Proof.
      induction 1 as [|n v d m l rs Hv Hk _ _ _ Hn _ IH|n v l rs Hv _ IH].
      - split; [intros (r & [] & _)|intros (_ & n & v & [] & _)].
      - split.
        + intros (r & [<-|Hr] & Hval).
          * inversion Hval; subst. split; [now apply (valid_integer S m)|]. exists n, v. split; [now left|congruence].
          * destruct (proj1 IH) as (Hz & n' & v' & Hin & Hx); [eauto|]. split; auto. exists n', v'. split; [now right|auto].
        + intros (Hz & _). exists (Inline m). split; [now left|]. constructor. now apply valid_integer.
      - rewrite IH. split; intros (Hz & n' & v' & Hin & Hx); (split; [auto|]); exists n', v'; split; auto; [now right|].
        destruct Hin as [[= <- <-]|]; [congruence|auto].
    Qed.

    Lemma repr_exact vs l : di_data (D id) = DaEnum vs -> written_as_int pe pp (D id) vs -> enum_variants pe pp uni (D id) vs l ->
      forall cx m cx', schema_returns E (TNamed id) cx m cx' -> forall S j,
      valid_model S m j <-> (exists z, j = JInt z) /\ exists n v, In (n, v) l /\ vs_discriminant v <> None.
    Proof.
      intros Hvs (Hrep & Hall) Hl cx m cx' Hr S j.
      destruct (repr_enum_described _ _ _ _ _ _ _ _ _ _ Hd Hr vs Hvs Hall Hrep) as (l' & Hl' & Hk & (rs & Ha & Hrs) & _).
      assert (l' = l) as ->.
      { destruct Hl as (r1 & H1 & H1'), Hl' as (r2 & H2 & H2').
        assert (r2 = r1) as -> by (eapply has_rule_unique; eauto; apply at_container; now rewrite Hvs).
        eapply serialised_variants_unique; eauto. intros v Hv. apply Hacc. eapply aa_variant; eauto. }
      rewrite (valid_alternatives S m rs j Ha Hk). now apply repr_alternatives_valid.
    Qed.

    Lemma struct_transparent_rejected fs f j : di_data (D id) = DaStruct (FNamed fs) -> transparent_field pe pp (D id) f ->
      emits (fs_ty f) j -> (forall ms, j <> JObj ms) ->
      (j = JNull -> ~ said (PContainer DkNamed) (di_attrs (D id)) SNullable) ->
      emits (TNamed id) j /\ rejects E (TNamed id) j.
    Proof.
      intros Hs Ht He Hj Hn. split; [eapply em_transparent; eauto|]. intros cx m cx' Hr S Hval.
      destruct (struct_described _ _ _ _ _ _ _ _ _ _ Hd Hr fs Hs) as (_ & (b & Hb & Hfl) & r & _ & (l & rs & o & _ & _ & Ho & _)).
      destruct (valid_object _ _ _ _ Ho Hval) as [[H H']|(ms & H & _)]; [|now apply (Hj ms)].
      rewrite Hb in H'. injection H' as ->. apply (Hn H). now apply Hfl.
    Qed.

    Lemma tuple_transparent_rejected fs f j : di_data (D id) = DaStruct (FUnnamed fs) -> length fs <> 1 ->
      transparent_field pe pp (D id) f -> emits (fs_ty f) j -> (forall l, j <> JArr l) ->
      (j = JNull -> ~ said (PContainer DkOther) (di_attrs (D id)) SNullable) ->
      emits (TNamed id) j /\ rejects E (TNamed id) j.
    Proof.
      intros Hs Hlen Ht He Hj Hn. split; [eapply em_transparent; eauto|]. intros cx m cx' Hr S Hval.
      destruct (tuple_struct_described _ _ _ _ _ _ _ _ _ _ Hd Hr fs Hs Hlen) as (_ & (b & Hb & Hfl) & rs & _ & (d & Hi & _)).
      destruct (valid_array _ _ _ _ Hi Hval) as [[H H']|(ms & H & _)]; [|now apply (Hj ms)].
      rewrite Hb in H'. injection H' as ->. apply (Hn H). now apply Hfl.
    Qed.

    Lemma required_in {A} (l : list (str * field_syn A)) req n f : required_names pe pp l req -> In (n, f) l ->
      ~ field_optional pe pp f -> In n req.
    Proof.
      induction 1 as [|n0 f0 l req Ho _ IH|n0 f0 l req Ho _ IH]; intros Hin Hno; [destruct Hin| |].
      - destruct Hin as [[= -> ->]|Hin]; [contradiction|auto].
      - destruct Hin as [[= -> ->]|Hin]; [now left|right; auto].
    Qed.

    (** objects must have a member for every field that is not optional, flattened or not *)
    Lemma flattened_rejected fs rule l n f ms : di_data (D id) = DaStruct (FNamed fs) ->
      has_rule pe pp (PContainer DkNamed) (di_attrs (D id)) rule -> serialised_fields pe pp rule 0 fs l ->
      In (n, f) l -> ~ field_optional pe pp f -> ~ In n (keys ms) -> rejects E (TNamed id) (JObj ms).
    Proof.
      intros Hs Hrule Hl Hin Hno Hk cx m cx' Hr S Hval.
      destruct (struct_described _ _ _ _ _ _ _ _ _ _ Hd Hr fs Hs) as (_ & _ & r & Hr2 & (l' & rs & o & Hl' & _ & Ho & _ & _ & Hq & _)).
      assert (r = rule) as -> by (eapply has_rule_unique; eauto; apply at_container; now rewrite Hs).
      assert (l' = l) as -> by (eapply serialised_fields_unique; eauto; intros f0 Hf0; apply Hacc; eapply aa_field; eauto).
      destruct (valid_object _ _ _ _ Ho Hval) as [[H H']|(ms' & [= <-] & Hreq & _)]; [discriminate|].
      apply Hk, Hreq. eapply required_in; eauto.
    Qed.

    Lemma newtype_flag_exact f t : di_data (D id) = DaStruct (FUnnamed [f]) ->
      said (PContainer DkOther) (di_attrs (D id)) (SType t) ->
      forall cx m cx', schema_returns E (TNamed id) cx m cx' -> forall S j,
      valid_model S m j <-> of_kind t j \/ (j = JNull /\ said (PContainer DkOther) (di_attrs (D id)) SNullable).
    Proof.
      intros Hs Ht cx m cx' Hr S j.
      destruct (newtype_struct_described _ _ _ _ _ _ _ _ _ _ Hd Hr f Hs) as (p & q & _ & _ & [(t' & b & Ht' & Hb & Hm & _)|(Hno & _)]);
        [|destruct (Hno _ Ht)].
      assert (t' = t) as -> by (destruct (acceptable_takes _ _ _ _ (at_container DkOther ltac:(now rewrite Hs))) as [s Hss];
        pose proof (ss_types _ _ _ _ _ Hss) as Hty; apply Hty in Ht, Ht'; congruence).
      rewrite (valid_explicit S _ _ _ _ j Hm). unfold flag_takes in Hb. rewrite Hb. tauto.
    Qed.

    (** a member described by a type flag *)
    Lemma field_flag_exact fs l r n f t : di_data (D id) = DaStruct (FNamed fs) ->
      has_rule pe pp (PContainer DkNamed) (di_attrs (D id)) r -> serialised_fields pe pp r 0 fs l -> NoDup (map fst l) ->
      In (n, f) l -> said PField (fs_attrs f) (SType t) ->
      forall ms x, In (n, x) ms -> ~ of_kind t x -> (x = JNull -> ~ said PField (fs_attrs f) SNullable) ->
      rejects E (TNamed id) (JObj ms).
    Proof.
      intros Hs Hrule Hl Hnd Hin Ht ms x Hx Hk Hnull cx m cx' Hr S Hval. apply In_nth_error in Hin. destruct Hin as (k & Hnth).
      destruct (struct_flagged _ _ _ _ _ _ _ _ _ _ Hd Hr fs l r k n f t Hs Hrule Hl Hnd Hnth Ht) as (o & Ho & _ & Hfl).
      destruct Hfl as (p & nl & mm & _ & Hnl & Hp & Hm). { intros ->. now apply Hk. }
      destruct (valid_object _ _ _ _ Ho Hval) as [[H _]|(ms' & [= <-] & _ & Hmem)]; [discriminate|].
      specialize (Hmem _ _ _ Hx Hp). inversion Hmem as [| |? ? Hv]; subst.
      apply (valid_explicit S _ _ _ _ x Hm) in Hv. destruct Hv as [Hv|(-> & ->)]; [contradiction|].
      apply Hnull; auto. now apply Hnl.
    Qed.

    Lemma adjacent_struct_rejected vs w tag content n v fs : di_data (D id) = DaEnum vs -> In w vs -> ~ unit_variant w ->
      tag <> content -> enum_variant pe pp uni (D id) (RepAdjacent tag content) n v -> vs_fields v = FNamed fs ->
      (forall v', In v' vs -> ~ variant_skipped pe pp v' -> ~ newtype_variant v') ->
      forall t ms, rejects E (TNamed id) (JObj [(tag, t); (content, JObj ms)]).
    Proof.
      intros Hvs Hw Hnu Htc Hv _ Hnt t ms cx m cx' Hr S Hval.
      destruct Hv as (vs' & l0 & Hvs' & _ & Hrep & _). rewrite Hvs in Hvs'. injection Hvs' as <-.
      destruct (adjacent_enum_described _ _ _ _ _ _ _ _ _ _ Hd Hr vs Hvs w tag content Hw Hnu Hrep)
        as (l & rs & o & m1 & m2 & (r & _ & Hl) & Hio & Ho & _ & _ & Hp & _ & _ & Hk & Ha & _).
      destruct (valid_object _ _ _ _ Ho Hval) as [[H H']|(ms' & [= <-] & _ & Hmem)]; [discriminate|].
      specialize (Hmem content (JObj ms) (Inline m2)). rewrite Hp in Hmem. cbn in Hmem.
      destruct (str_eq_dec content content); [|congruence].
      specialize (Hmem (or_intror (or_introl eq_refl)) eq_refl). inversion Hmem as [| |? ? Hm2]; subst.
      apply (valid_alternatives S m2 rs _ Ha Hk) in Hm2. destruct Hm2 as (ref & Href & Hval2).
      destruct (in_order_in _ _ _ _ _ _ Hio Href) as ((n' & v') & c1 & c2 & Hin & Halt). unfold alternative_of in Halt. cbn in Halt.
      destruct (serialised_variants_In _ _ _ _ _ _ _ _ Hl Hin) as (Hin' & Hns).
      assert (Htup : exists am fs', ref = Inline am /\ tuple_payload pe pp ev E v' fs' c1 am c2).
      { inversion Halt as [? ? ? ? Hx|? ? ? f ? ? ? Hx Hfs|? ? ? fs' ? ? ? ? Hfs Hlen Hx|? ? ? ? ? ? ? [Hx|Hx]|? ? ? ? fs' ? ? ? Hfs Hx]; subst;
          try discriminate; eauto. destruct (Hnt _ Hin' Hns). now exists f. }
      destruct Htup as (am & fs' & -> & (b & rs' & _ & _ & Hn & _ & (d & Hi & _))).
      inversion Hval2 as [| |? ? Hv2]; subst. destruct (valid_array _ _ _ _ Hi Hv2) as [[H _]|(x & H & _)]; discriminate.
    Qed.

    (** alternatives of an internally tagged enum that are not those of newtype variants do not accept null *)
    Lemma internal_null vs w tag : di_data (D id) = DaEnum vs -> In w vs -> ~ unit_variant w ->
      represents pe pp (di_attrs (D id)) (RepInternal tag) ->
      (forall v', In v' vs -> ~ variant_skipped pe pp v' -> ~ newtype_variant v') ->
      forall cx m cx', schema_returns E (TNamed id) cx m cx' -> nullable_of m = None /\ forall S, ~ valid_model S m JNull.
    Proof.
      intros Hvs Hw Hnu Hrep Hnt cx m cx' Hr.
      destruct (internal_enum_described _ _ _ _ _ _ _ _ _ _ Hd Hr vs Hvs w tag Hw Hnu Hrep) as (l & rs & (r & _ & Hl) & Hio & Hk & Ha & _).
      split. { destruct m as [d [[n td]|?|?|?]]; try reflexivity. discriminate. }
      intros S Hval. apply (valid_alternatives S m rs _ Ha Hk) in Hval. destruct Hval as (ref & Href & Hval).
      destruct (in_order_in _ _ _ _ _ _ Hio Href) as ((n' & v') & c1 & c2 & Hin & (pm & am & Hp & -> & Htag)). cbn [fst snd] in *.
      destruct (serialised_variants_In _ _ _ _ _ _ _ _ Hl Hin) as (Hin' & Hns).
      assert (Hpn : nullable_of pm = Some false).
      { inversion Hp as [? o Hx Hdesc Hnull Ho Hobj|f p q m0 cxx Hx _ _ Hret|fs' pm' cxx Hx Hpay]; subst; auto.
        - destruct (Hnt _ Hin' Hns). now exists f.
        - destruct Hpay as (? & ? & ? & ? & ? & ? & ?). auto. }
      inversion Hval as [| |? ? Hv2]; subst.
      assert (Han : nullable_of am = Some false) by (destruct Htag; [congruence|subst; auto]).
      now apply (valid_null_nullable S am).
    Qed.

    Lemma repr_null vs : di_data (D id) = DaEnum vs -> written_as_int pe pp (D id) vs ->
      forall cx m cx', schema_returns E (TNamed id) cx m cx' -> nullable_of m = None /\ forall S, ~ valid_model S m JNull.
    Proof.
      intros Hvs Hw cx m cx' Hr. pose proof Hw as (Hrep & Hall).
      destruct (repr_enum_described _ _ _ _ _ _ _ _ _ _ Hd Hr vs Hvs Hall Hrep) as (l & Hl & Hk & (rs & Ha & _) & _).
      split. { destruct m as [d [[n td]|?|?|?]]; try reflexivity. discriminate. }
      intros S Hval. apply (repr_exact vs l Hvs Hw Hl _ _ _ Hr) in Hval. destruct Hval as ((z & Hz) & _). discriminate.
    Qed.
  End Derived.

  Lemma nullable_valid S m j : nullable_of m = None -> valid_model S (apply_params nullable_params m) j <-> valid_model S m j.
  Proof. destruct m as [d [[n td]|l|l|l]]; cbn; intros Hn; try discriminate; reflexivity. Qed.

  (** when the schema of an [Option] accepts null *)
  Lemma option_null t cx m0 cx' m cx2 : schema_returns E t cx m0 cx' -> schema_returns E (TOption t) cx m cx2 ->
    forall S, valid_model S m JNull <-> nullable_of m0 <> None \/ valid_model S m0 JNull.
  Proof.
    intros H0 H S. apply option_returns in H. destruct H as (m1 & H1 & ->).
    destruct (schema_returns_det _ _ _ _ _ _ _ H0 H1) as [<- <-].
    destruct m0 as [d [[n td]|l|l|l]]; cbn.
    - split; [left; congruence|]. intros _. destruct td; constructor.
    - split; [auto|]. intros [H|H]; [congruence|auto].
    - split; [auto|]. intros [H|H]; [congruence|auto].
    - split; [auto|]. intros [H|H]; [congruence|auto].
  Qed.

  Lemma option_rejects t : (forall cx m cx', schema_returns E t cx m cx' -> nullable_of m = None /\ forall S, ~ valid_model S m JNull) ->
    rejects E (TOption t) JNull.
  Proof.
    intros Ht cx m cx' Hr S Hv. apply option_returns in Hr. destruct Hr as (m0 & H0 & ->).
    destruct (Ht _ _ _ H0) as (Hn & Hno). apply (Hno S). exact (proj1 (nullable_valid S m0 JNull Hn) Hv).
  Qed.

  Lemma tuple1_rejected p l : rejects E (TWrap WTuple1 (TPrim p)) (JArr l).
  Proof.
    intros cx m cx' Hr S Hv. apply (proj1 (wrap_returns E WTuple1 (TPrim p) cx m cx')) in Hr. destruct Hr as [[|fuel] Hr]; [discriminate|].
    cbn in Hr. injection Hr as <- <-. destruct p; cbn in Hv; inversion Hv.
  Qed.
End Reject.
