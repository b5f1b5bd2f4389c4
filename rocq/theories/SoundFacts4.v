(** What serde writes is accepted by the generated schemas: the induction. *)
From Verif Require Import Attr AttrSpec AttrFacts Ast AstFacts Derive DeriveSpec Schema SchemaSpec SchemaFacts Gen GenSpec
  GenFacts GenFacts2 GenFacts3 GenFacts4 DeriveFacts DeriveFacts2 DeriveFacts5 SoundSpec AddSpec FitsSpec FitsFacts SoundFacts SoundFacts2 SoundFacts3.
From Coq Require Import Arith Lia ZArith.

Section Facts.
  Variable pe pp : str -> bool.
  Variable uni : N -> bool.
  Variable disc : str -> Z.
  Variable D : tid -> derive_input ty.
  Variable ev : str -> str.
  Variable loose : Prop.
  (** the sources of the types whose values are written: those of the schemas, or with more fields if that is allowed *)
  Variable D1 : tid -> derive_input ty.
  Hypothesis Hadd : forall id, D1 id = D id \/ loose /\ data_added pe pp D1 (D id) (D1 id).
  (** what is flattened has in the sources written no member named as those beside it *)
  Hypothesis Hflat : flattened_kept pe pp D D1.
  Variables (E : env) (calls : list mention_call) (cx_end : components).
  Hypothesis Hun : names_unambiguous E (call_sites calls).
  Hypothesis Hret : mentions_return E calls cx_new cx_end.
  Notation sound := (sound loose E calls cx_end).
  Notation supp := (supp pe pp uni D ev loose E).
  Notation both := (fun t j => kinded pe pp D t j /\ sound t j).
  Notation roots := (call_sites calls).
  Notation S := (cx_schemas cx_end).

  Lemma harmless_default : harmless params_default.
  Proof. split; [reflexivity|discriminate]. Qed.

  Lemma mention_sites fuel t i cx r cx' j t0 : (exists s, visited E roots s /\ site_ty s = t0) -> In (SMention t i) (sites_of E t0) ->
    sound t j -> mention_schema E (get_schema E fuel) t i params_default cx = Ok (r, cx') -> meets loose S r j.
  Proof.
    intros (s & Hv & <-) Hin Hs Hm. eapply jr_sound_mention; eauto; [|apply harmless_default]. eapply vis_step; eauto.
  Qed.

  (** [enum_variant] of an enum whose variants are all unit *)
  Lemma unit_rep id vs rep n v : di_data (D id) = DaEnum vs -> supp (TNamed id) -> enum_variant pe pp uni (D id) rep n v ->
    (forall v, In v vs -> unit_variant v) -> rep = RepExternal.
  Proof.
    intros Hd Hs (vs' & l & Hd' & Hni & Hrep & _) Hu. rewrite Hd in Hd'. injection Hd' as <-.
    destruct (supp_derived _ _ _ _ _ _ _ _ Hs) as [Hdv Hsup]. destruct (derive_inv _ _ _ _ _ _ Hdv) as (c & Hc & _).
    inversion Hsup as [? E0|? E0|? E0|? E0 _ _ Hrep'|? E0 Hw|? w rep' E0 Hin Hnw]; rewrite Hd in E0; try discriminate; injection E0 as <-.
    - destruct Hc. apply (cp_tag vs) in Hrep; auto. apply (cp_tag vs) in Hrep'; auto. congruence.
    - contradiction.
    - destruct Hnw. auto.
  Qed.

  Lemma enum_payload id vs rep n v j : di_data (D id) = DaEnum vs -> supp (TNamed id) -> enum_variant pe pp uni (D id) rep n v ->
    payload_by pe pp loose (fun t j => supp t -> both t j) v j -> In v vs /\ ~ unit_variant v /\ payload_by pe pp loose both v j.
  Proof.
    intros Hd Hs Hv Hp. destruct (payload_mixed pe pp uni D ev loose E id vs Hd Hs _ _ _ _ _ Hv Hp) as [Hin Hnu].
    split; auto. split; auto. destruct (supported_rep pe pp uni D ev loose E id vs Hd Hs v Hin Hnu _ _ _ Hv) as [Hsup _].
    eapply payload_sound; eauto.
    - destruct Hv as (vs' & l' & Hd' & _ & _ & Hl & Hin'). rewrite Hd in Hd'. injection Hd' as <-.
      destruct (enum_code pe pp uni D ev loose E id vs Hd Hs) as (c & ws & l & _ & Hdet & Hsk & _). rewrite (Hdet _ Hl) in Hin'. now apply (Hsk n).
    - intros f Hf. unfold variant_supported in Hsup. rewrite Hf in Hsup. apply Hsup.
  Qed.

  (** the flattened ones of the named fields of [v] keep clear of the others *)
  Definition flat_ok (v : variant_syn ty) : Prop := forall fs rule l, vs_fields v = FNamed fs ->
    has_rule pe pp PVariant (vs_attrs v) rule -> serialised_fields pe pp rule 0 fs l ->
    forall n f, In (n, f) l -> AttrSpec.said pe pp PField (fs_attrs f) SFlatten -> loose /\ keeps_clear pe pp D1 l f.
  Lemma supp_flat_ok id rep n v : supp (TNamed id) -> enum_variant pe pp uni (D id) rep n v -> flat_ok v.
  Proof.
    intros Hs Hv fs rule l Hfs Hr Hl n' f Hin Hfl. pose proof Hv as (vs & lv & Hd & Hni & Hrep & Hlv & Hinv).
    destruct (enum_code pe pp uni D ev loose E id vs Hd Hs) as (c & ws & l0 & _ & Hdet & Hsk & _).
    pose proof Hinv as Hinv'. rewrite (Hdet _ Hlv) in Hinv'. destruct (Hsk n v Hinv') as [Hvin Hvs].
    assert (Hnu : ~ unit_variant v) by (unfold unit_variant; rewrite Hfs; discriminate).
    destruct (supported_rep pe pp uni D ev loose E id vs Hd Hs v Hvin Hnu _ _ _ Hv) as [Hsup _].
    unfold variant_supported in Hsup. rewrite Hfs in Hsup. destruct Hsup as [_ Hm]. destruct (Hm _ _ Hr Hl) as [_ Hp].
    destruct (Hp n' f Hin) as [[[Hx _]|(Hlo & _ & _ & Ha)] _]; [contradiction|]. split; [exact Hlo|].
    pose proof (Hflat id) as Hk. rewrite Hd in Hk. exact (Hk _ _ Hvin Hfs _ _ _ _ Hr Hl Hin Hfl Ha).
  Qed.

  (** *** The fields of the sources written against those of the schemas *)
  Definition fewer (l l' : list (str * field_syn ty)) : Prop := incl l l' /\
    forall n f, In (n, f) l' -> In (n, f) l \/ loose /\ ~ In n (map fst l) /\ (AttrSpec.said pe pp PField (fs_attrs f) SFlatten -> keeps_clear pe pp D1 l f).
  Definition variant_fewer (v v' : variant_syn ty) : Prop :=
    vs_ident v = vs_ident v' /\ vs_attrs v = vs_attrs v' /\ vs_discriminant v = vs_discriminant v' /\
    match vs_fields v, vs_fields v' with
    | FNamed fs, FNamed fs' => forall rule l', has_rule pe pp PVariant (vs_attrs v) rule -> serialised_fields pe pp rule 0 fs' l' ->
        exists l, serialised_fields pe pp rule 0 fs l /\ fewer l l'
    | _, _ => vs_fields v = vs_fields v'
    end.
  Lemma fewer_same l : fewer l l.
  Proof. split; [intros x Hx; exact Hx|auto]. Qed.
  Lemma variant_fewer_same v : variant_fewer v v.
  Proof. do 3 (split; [reflexivity|]). destruct (vs_fields v); [|reflexivity|reflexivity]. intros rule l' Hr Hl. exists l'. split; [exact Hl|apply fewer_same]. Qed.
  Lemma attrs_written id : di_attrs (D1 id) = di_attrs (D id).
  Proof. destruct (Hadd id) as [->|[_ (_ & H & _)] ]; auto. Qed.
  Lemma struct_written id fs' : di_data (D1 id) = DaStruct (FNamed fs') -> exists fs, di_data (D id) = DaStruct (FNamed fs) /\
    forall rule l', has_rule pe pp (PContainer DkNamed) (di_attrs (D id)) rule -> serialised_fields pe pp rule 0 fs' l' ->
    exists l, serialised_fields pe pp rule 0 fs l /\ fewer l l'.
  Proof.
    intros H. destruct (Hadd id) as [Heq|[Hl (_ & _ & Hd)] ].
    - exists fs'. rewrite <- Heq. split; [exact H|]. intros rule l' _ Hs. exists l'. split; [exact Hs|apply fewer_same].
    - rewrite H in Hd. destruct (di_data (D id)) as [|[fs| |]|] eqn:Ed; try discriminate. exists fs. split; [reflexivity|].
      intros rule l' Hr Hs. destruct (Hd rule l' Hr Hs) as (l & H1 & H2 & H3). exists l. split; [exact H1|]. split; [exact H2|].
      intros n f Hf. destruct (H3 n f Hf) as [H4|[H4 H5] ]; auto.
  Qed.
  Lemma unnamed_written id fs : di_data (D1 id) = DaStruct (FUnnamed fs) -> di_data (D id) = DaStruct (FUnnamed fs).
  Proof.
    intros H. destruct (Hadd id) as [Heq|[Hl (_ & _ & Hd)] ]; [now rewrite <- Heq|]. rewrite H in Hd.
    destruct (di_data (D id)) as [|[?|?|]|]; try discriminate; exact Hd.
  Qed.
  Lemma written_struct id fs : di_data (D id) = DaStruct (FUnnamed fs) -> di_data (D1 id) = DaStruct (FUnnamed fs).
  Proof.
    intros H. destruct (Hadd id) as [Heq|[Hl (_ & _ & Hd)] ]; [now rewrite Heq|]. rewrite H in Hd.
    destruct (di_data (D1 id)) as [|[?|?|]|]; try discriminate; congruence.
  Qed.
  Lemma enum_written id vs' : di_data (D1 id) = DaEnum vs' -> exists vs, di_data (D id) = DaEnum vs /\ Forall2 variant_fewer vs vs'.
  Proof.
    intros H. destruct (Hadd id) as [Heq|[Hl (_ & _ & Hd)] ].
    - exists vs'. rewrite <- Heq. split; [exact H|]. clear. induction vs'; constructor; [apply variant_fewer_same|assumption].
    - rewrite H in Hd. destruct (di_data (D id)) as [vs|[?|?|]|]; try discriminate. exists vs. split; [reflexivity|].
      clear -Hd Hl. induction Hd as [|v v' vs vs' (H1 & H2 & H3 & H4) Hd IH]; constructor; [|exact IH].
      do 3 (split; [assumption|]). destruct (vs_fields v) as [fs|?|], (vs_fields v') as [fs'|?|]; try exact H4.
      intros rule l' Hr Hs. destruct (H4 rule l' Hr Hs) as (l & H5 & H6 & H7). exists l. split; [exact H5|]. split; [exact H6|].
      intros n f Hf. destruct (H7 n f Hf) as [H8|[H8 H9] ]; auto.
  Qed.
  Lemma written_enum id vs : di_data (D id) = DaEnum vs -> exists vs', di_data (D1 id) = DaEnum vs' /\ Forall2 variant_fewer vs vs'.
  Proof.
    intros H. destruct (di_data (D1 id)) as [vs'|[fs|fs|]|] eqn:E1.
    - destruct (enum_written _ _ E1) as (vs0 & H0 & Hf). exists vs'. split; [reflexivity|]. congruence.
    - destruct (struct_written _ _ E1) as (fs0 & H0 & _). congruence.
    - apply unnamed_written in E1. congruence.
    - destruct (Hadd id) as [Heq|[Hl (_ & _ & Hd)] ]; [congruence|]. rewrite H, E1 in Hd. discriminate.
    - destruct (Hadd id) as [Heq|[Hl (_ & _ & Hd)] ]; [congruence|]. rewrite H, E1 in Hd. discriminate.
  Qed.
  Lemma fewer_unit v v' : variant_fewer v v' -> (unit_variant v <-> unit_variant v').
  Proof.
    intros (_ & _ & _ & H). unfold unit_variant. destruct (vs_fields v), (vs_fields v'); try discriminate; try (split; discriminate). reflexivity.
  Qed.
  Lemma fewer_units vs vs' : Forall2 variant_fewer vs vs' -> ((forall v, In v vs -> unit_variant v) <-> forall v, In v vs' -> unit_variant v).
  Proof.
    induction 1 as [|v v' vs vs' Hv H IH]; [split; intros _ ? []|]. split; intros Ha x [<-|Hx].
    - apply (fewer_unit v v' Hv), Ha. now left.
    - apply (proj1 IH); [intros y Hy; apply Ha; now right|exact Hx].
    - apply (fewer_unit v v' Hv), Ha. now left.
    - apply (proj2 IH); [intros y Hy; apply Ha; now right|exact Hx].
  Qed.
  Lemma units_same vs vs' : Forall2 variant_fewer vs vs' -> (forall v, In v vs' -> unit_variant v) -> vs = vs'.
  Proof.
    induction 1 as [|v v' vs vs' Hv H IH]; intros Ha; [reflexivity|]. f_equal; [|apply IH; intros x Hx; apply Ha; now right].
    assert (Hu' : unit_variant v') by (apply Ha; now left). assert (Hu : unit_variant v) by now apply (fewer_unit v v').
    destruct Hv as (H1 & H2 & H3 & _). unfold unit_variant in *. destruct v, v'; cbn in *. congruence.
  Qed.
  Lemma int_written id vs vs' : Forall2 variant_fewer vs vs' -> (written_as_int pe pp (D id) vs <-> written_as_int pe pp (D1 id) vs').
  Proof. intros H. unfold written_as_int. now rewrite attrs_written, (fewer_units _ _ H). Qed.
  Lemma skipped_same v v' : variant_fewer v v' -> (variant_skipped pe pp v <-> variant_skipped pe pp v').
  Proof. intros (_ & H & _). unfold variant_skipped. now rewrite H. Qed.
  Lemma named_same r v v' n : variant_fewer v v' -> variant_named pe pp uni r v' n -> variant_named pe pp uni r v n.
  Proof.
    intros (H1 & H2 & _) Hn. inversion Hn as [Hx|Hx Hy]; [apply vn_explicit; now rewrite H2|apply vn_rule; [now rewrite H2|now rewrite H1] ].
  Qed.
  Lemma variants_written r vs vs' l' : Forall2 variant_fewer vs vs' -> serialised_variants pe pp uni r vs' l' ->
    exists l, serialised_variants pe pp uni r vs l /\ Forall2 (fun a b => fst a = fst b /\ variant_fewer (snd a) (snd b)) l l'.
  Proof.
    intros H. revert l'. induction H as [|v v' vs vs' Hv H IH]; intros l' Hl.
    - inversion Hl; subst. exists []. split; constructor.
    - inversion Hl as [|? ? ? Hs Hr|? n ? l0 Hs Hn Hr]; subst; destruct (IH _ Hr) as (l & H1 & H2).
      + exists l. split; [apply sv_skip; [now apply (skipped_same v v')|exact H1]|exact H2].
      + exists ((n, v) :: l). split; [|now constructor]. apply sv_keep; [now rewrite (skipped_same v v')|now apply (named_same _ v v')|exact H1].
  Qed.
  Lemma variant_written id rep n v' : enum_variant pe pp uni (D1 id) rep n v' -> exists v, enum_variant pe pp uni (D id) rep n v /\ variant_fewer v v'.
  Proof.
    intros (vs' & l' & Hd' & Hni & Hrep & (r & Hr & Hl) & Hin). destruct (enum_written _ _ Hd') as (vs & Hd & Hvs).
    destruct (variants_written _ _ _ _ Hvs Hl) as (l & Hl1 & Hl2).
    assert (Hx : exists v, In (n, v) l /\ variant_fewer v v').
    { clear -Hl2 Hin. induction Hl2 as [|[m v] [m' w] l l' [H1 H2] H IH]; [destruct Hin|]. cbn in *. destruct Hin as [[= -> ->]|Hin].
      - exists v. subst. auto.
      - destruct (IH Hin) as (x & Hx & Hy). exists x. auto. }
    destruct Hx as (v & Hv & Hf). exists v. split; [|exact Hf]. exists vs, l. split; [exact Hd|]. rewrite <- attrs_written.
    split; [now rewrite (int_written id _ _ Hvs)|]. split; [exact Hrep|]. split; [|exact Hv]. exists r. rewrite <- attrs_written. auto.
  Qed.
  Lemma enum_writes id vs j : di_data (D1 id) = DaEnum vs -> emits pe pp uni disc D1 (TNamed id) j ->
    (written_as_int pe pp (D1 id) vs /\ exists z, j = JInt z) \/
    (~ written_as_int pe pp (D1 id) vs /\ exists rep n v, enum_variant pe pp uni (D1 id) rep n v /\
       ((unit_variant v /\ (rep = RepExternal -> j = JStr n)) \/ exists j', emits_payload pe pp uni disc D1 v j')).
  Proof.
    intros Hd H.
    assert (Hv : forall rep n v, enum_variant pe pp uni (D1 id) rep n v -> ~ written_as_int pe pp (D1 id) vs).
    { intros rep n v (vs' & l & Hd' & Hni & _). congruence. }
    inversion H; subst; try congruence;
      try (right; split; [eauto|]; do 3 eexists; split; [eassumption|];
           first [ left; split; [assumption|]; first [discriminate|reflexivity]
                 | right; eauto ]; fail).
    - match goal with Hx : transparent_field _ _ _ _ |- _ => destruct Hx as (fs & kind & Hs & _); congruence end.
    - left. match goal with Hx : di_data _ = DaEnum ?l |- _ => assert (l = vs) as -> by congruence end. eauto.
  Qed.

  Lemma enum_emits id vs j : di_data (D id) = DaEnum vs -> emits pe pp uni disc D1 (TNamed id) j ->
    (written_as_int pe pp (D id) vs /\ exists z, j = JInt z) \/
    (~ written_as_int pe pp (D id) vs /\ exists rep n v, enum_variant pe pp uni (D id) rep n v /\
       ((unit_variant v /\ (rep = RepExternal -> j = JStr n)) \/ ~ unit_variant v)).
  Proof.
    intros Hd H. destruct (written_enum _ _ Hd) as (vs' & Hd' & Hvs). rewrite (int_written id _ _ Hvs).
    destruct (enum_writes _ _ _ Hd' H) as [Hx|(Hn & rep & n & v' & Hv & Hj)]; [now left|right]. split; [exact Hn|].
    destruct (variant_written _ _ _ _ Hv) as (v & Hv1 & Hv2). exists rep, n, v. split; [exact Hv1|].
    destruct Hj as [[Hu Hj]|(j' & Hj)]; [left; split; [now apply (fewer_unit v v' Hv2)|exact Hj]|right]. intros Hu.
    apply (fewer_unit v v' Hv2) in Hu. unfold unit_variant in Hu. inversion Hj; congruence.
  Qed.

  Lemma emits_kinded t j : emits pe pp uni disc D1 t j -> supp t -> kinded pe pp D t j.
  Proof.
    intros He Hs null k Ha. revert j He Hs.
    induction Ha as [p Hp|w t Hw Ha IH|t Hn Ha IH|id f Hd Ha IH|id vs Hk Hd Hu Hr Hrep|id vs Hk Hd Hw]; intros j He Hs.
    - inversion He; subst. left. auto.
    - inversion He; subst; [|congruence]. apply IH; auto. eapply supp_step; [exact Hs|constructor].
    - inversion He; subst; [right; auto|]. apply IH; auto. eapply supp_step; [exact Hs|constructor].
    - assert (Hs' : supp (fs_ty f)).
      { eapply supp_step; [exact Hs|]. constructor. split; [|rewrite Hd; now left].
        destruct (supp_derived _ _ _ _ _ _ _ _ Hs) as [_ Hsup].
        inversion Hsup as [? E0|? E0 Hl|? E0|? E0|? E0|? ? ? E0]; rewrite Hd in E0; try discriminate; injection E0 as <-; auto. }
      apply IH; [|exact Hs'].
      assert (Hd1 : di_data (D1 id) = DaStruct (FUnnamed [f])) by now apply written_struct.
      assert (Hno : forall rep n v, ~ enum_variant pe pp uni (D1 id) rep n v).
      { intros rep n v (vs' & l & Hd' & _). congruence. }
      inversion He; subst; try congruence; try (exfalso; eapply Hno; eassumption).
      + match goal with Hx : di_data _ = DaStruct (FUnnamed ?l) |- _ => assert (l = [f]) as -> by congruence end. now destruct H1.
      + match goal with Hx : transparent_field _ _ _ _ |- _ => destruct Hx as (fs & kind & Hs1 & _ & _ & Hf & _) end.
        rewrite Hd1 in Hs1. injection Hs1 as <-. destruct Hf as [->|[] ]. assumption.
    - subst k. left. destruct (supp_derived _ _ _ _ _ _ _ _ Hs) as [Hdv _].
      destruct (enum_emits _ _ _ Hd He) as [[[Hx _] _]|(_ & rep & n & v & Hv & Hj)]; [contradiction|].
      assert (rep = RepExternal) as -> by (eapply unit_rep; eauto).
      destruct Hv as (vs' & l & Hd' & _ & _ & Hl & Hin). assert (vs' = vs) as -> by congruence.
      destruct (enum_code pe pp uni D ev loose E id vs Hd Hs) as (c & ws & l0 & _ & Hdet & Hsk & _). rewrite (Hdet _ Hl) in Hin.
      destruct (Hsk _ _ Hin) as [Hvin _]. destruct Hj as [[_ Hj]|Hp]; [rewrite (Hj eq_refl); exact I|].
      now apply Hu in Hvin.
    - left. destruct (enum_emits _ _ _ Hd He) as [[_ [z ->] ]|(Hx & _)]; [|contradiction]. destruct Hk as [->| ->]; exact I.
  Qed.

  (** *** Flattened fields *)
  Definition flat_by (t : ty) (ms : list (str * json)) : Prop := exists j, emits pe pp uni disc D1 t j /\ flattened j ms.
  (** in the induction *)
  Lemma struct_like id fs0 rule l0 l ms : di_data (D id) = DaStruct (FNamed fs0) -> supp (TNamed id) ->
    has_rule pe pp (PContainer DkNamed) (di_attrs (D id)) rule -> serialised_fields pe pp rule 0 fs0 l0 -> fewer l0 l ->
    fields_by pe pp (fun t j => supp t -> both t j) flat_by l ms -> fields_like pe pp loose both l0 ms.
  Proof.
    intros Hd Hs Hr Hl [Hi Hn] Hby. eapply fields_like_impl; [|eapply fields_by_like; [exact Hi| | |exact Hby] ].
    - cbn. intros n f j Hin Hq. apply Hq. destruct (serialised_fields_In _ _ _ _ _ _ _ _ Hl Hin) as [Hf Hnf].
      eapply supp_step; [exact Hs|]. constructor. split; auto. now rewrite Hd.
    - intros n f Hf. destruct (Hn n f Hf) as [H|(H1 & H2 & _)]; auto.
    - intros n f ms' k Hin Hfl (j & Hj & Hms) Hk. destruct (Hn n f Hin) as [Hin'|(Hlo & _ & H)]; [|split; [exact Hlo|exact (H Hfl _ _ _ _ _ Hj Hms Hk)] ].
      destruct (supp_derived _ _ _ _ _ _ _ _ Hs) as [_ Hsup].
      inversion Hsup as [? E0 _ _ Hm|? E0|? E0|? E0|? E0|? ? ? E0]; rewrite Hd in E0; try discriminate; injection E0 as <-.
      destruct (Hm _ _ Hr Hl) as [_ Hp]. destruct (Hp n f Hin') as [ [ [Hx _] |(Hlo & _ & _ & Ha)] _]; [contradiction|]. split; [exact Hlo|].
      pose proof (Hflat id) as Hk'. rewrite Hd in Hk'. exact (Hk' _ _ _ _ Hr Hl Hin' Hfl Ha _ _ _ _ _ Hj Hms Hk).
  Qed.

  Theorem emits_sound t j : emits pe pp uni disc D1 t j -> supp t -> sound t j.
  Proof.
    intros H. induction H using emits_mind with
      (P0 := fun v j => forall v0, variant_fewer v0 v -> flat_ok v0 -> payload_by pe pp loose (fun t j => supp t -> both t j) v0 j)
      (P1 := fun l ms => fields_by pe pp (fun t j => supp t -> both t j) flat_by l ms)
      (P2 := fun fs l => unnamed_by pe pp (fun t j => supp t -> both t j) fs l)
      (P3 := fun ts l => Forall2 (fun t j => supp t -> sound t j) ts l)
      (P4 := fun t l => forall j, In j l -> supp t -> sound t j)
      (P5 := fun t l => forall k j, In (k, j) l -> supp t -> sound t j).
    - intros _ _ cx m cx' Hr. apply returns_step in Hr as [fuel Hr]. cbn in Hr. injection Hr as <- <-. now apply prim_fits.
    - intros Hs (s & Hv & Hty) cx m cx' Hr. apply (proj1 (wrap_returns _ _ _ _ _ _)) in Hr.
      refine (IHemits _ _ _ _ _ Hr); [eapply supp_step; [exact Hs|constructor]|]. exists (SCall t). split; auto.
      eapply vis_step; [exact Hv|]. rewrite Hty. now left.
    - intros Hs. now apply supp_self in Hs.
    - intros Hs _ cx m cx' Hr. apply (proj1 (option_returns _ _ _ _ _)) in Hr as (m0 & Hr & ->). apply nullable_fits.
      eapply single_returned; [exact (supp_self _ _ _ _ _ _ _ _ Hs)| |exact Hr]. eapply supp_step; [exact Hs|constructor].
    - intros Hs (s & Hv & Hty) cx m cx' Hr. apply (proj1 (option_returns _ _ _ _ _)) in Hr as (m0 & Hr & ->). apply fits_apply.
      { split; [reflexivity|discriminate]. }
      refine (IHemits _ _ _ _ _ Hr); [eapply supp_step; [exact Hs|constructor]|]. exists (SCall t). split; auto.
      eapply vis_step; [exact Hv|]. rewrite Hty. now left.
    - intros Hs Hx cx m cx' Hr. apply returns_step in Hr as [fuel Hr]. cbn [schema_step] in Hr. binds. constructor. intros j Hj.
      apply mt_inline.
      assert (Hin : exists t, In t ts /\ (supp t -> sound t j)).
      { match goal with H : Forall2 _ _ _ |- _ => clear -H Hj; induction H as [|t j' ts l Ht H IH]; [destruct Hj|] end.
        destruct Hj as [->|Hj]; [exists t; split; [now left|auto]|]. destruct (IH Hj) as (t' & Ht' & Hq). exists t'. split; [now right|auto]. }
      destruct Hin as (t & Hin & Hq).
      match goal with H : eval_vec _ _ _ = Ok _ |- _ => destruct (eval_vec_In _ _ _ _ _ _ H Hin) as (r & c1 & c2 & Hr & Hf) end.
      eapply mm_oneof; [exact Hr|]. eapply mention_sites; [exact Hx| |apply Hq|exact Hf].
      + cbn. apply in_map_iff. eauto.
      + eapply supp_step; [exact Hs|]. now constructor.
    - intros Hs Hx cx m cx' Hr. apply returns_step in Hr as [fuel Hr]. cbn [schema_step] in Hr. binds. constructor. intros j Hj.
      eapply mention_sites; [exact Hx|now left| |eassumption]. apply IHemits; auto. eapply supp_step; [exact Hs|constructor].
    - intros Hs Hx cx m cx' Hr. apply returns_step in Hr as [fuel Hr]. cbn [schema_step] in Hr. binds. constructor; [intros ? []|discriminate|left; discriminate|].
      intros k0 j r Hj _ [= <-]. eapply mention_sites; [exact Hx|now left| |eassumption]. eapply IHemits; eauto.
      eapply supp_step; [exact Hs|constructor].
    - intros Hs. destruct (struct_written _ _ H) as (fs0 & Hd & Hw). rewrite attrs_written in *.
      match goal with Hr : has_rule _ _ _ _ _, Hl : serialised_fields _ _ _ _ _ _ |- _ => destruct (Hw _ _ Hr Hl) as (l0 & Hl0 & Hf0) end.
      eapply struct_sound; eauto. eapply struct_like; eauto.
    - intros Hs. destruct (struct_written _ _ H) as (fs0 & Hd & Hw). rewrite attrs_written in *.
      match goal with Hr : has_rule _ _ _ _ _, Hl : serialised_fields _ _ _ _ _ _ |- _ => destruct (Hw _ _ Hr Hl) as (l0 & Hl0 & Hf0) end.
      eapply tagged_struct_sound; eauto. eapply struct_like; eauto.
    - intros Hs. apply unnamed_written in H. eapply tuple_struct_sound; eauto. eapply unnamed_by_impl; [|eassumption]. cbn. intros f j Hin Hnf Hq. apply Hq.
      eapply supp_step; [exact Hs|]. constructor. split; auto. now rewrite H.
    - intros Hs. destruct H as (fs & kind & Hd & -> & Ht & Hf & Hnf & Hone). rewrite attrs_written in Ht.
      assert (Hn : exists fs0, di_data (D id) = DaStruct fs0 /\ match fs0, fs with FNamed _, FNamed _ => True | _, _ => fs0 = fs end).
      { destruct fs as [fs|fs|]; [destruct (struct_written _ _ Hd) as (fs0 & Hfs & _); exists (FNamed fs0); auto|apply unnamed_written in Hd; exists (FUnnamed fs); auto|destruct Hf]. }
      destruct Hn as (fs0 & Hd0 & Hfs0). clear Hd. rename Hd0 into Hd.
      destruct (supp_derived _ _ _ _ _ _ _ _ Hs) as [_ Hsup].
      inversion Hsup as [? E0 Hnt|? E0 _ Hnt|f0 E0|? E0|? E0|? ? ? E0]; rewrite Hd in E0; try discriminate; injection E0 as ->;
        destruct fs; try discriminate; try contradiction. injection Hfs0 as <-.
      destruct Hf as [->|[] ]. eapply newtype_struct_sound; eauto. enough (Hq : supp (fs_ty f)) by (split; [eapply emits_kinded; eauto|auto]). eapply supp_step; [exact Hs|]. constructor.
      split; [auto|rewrite Hd; now left].
    - intros Hs. apply unnamed_written in H. eapply newtype_struct_sound; eauto. enough (Hq : supp (fs_ty f)) by (split; [eapply emits_kinded; eauto|auto]). eapply supp_step; [exact Hs|]. constructor.
      split; [|rewrite H; now left].
      destruct (supp_derived _ _ _ _ _ _ _ _ Hs) as [_ Hsup].
      inversion Hsup as [? E0|? E0 Hl|? E0|? E0|? E0|? ? ? E0]; rewrite H in E0; try discriminate; injection E0 as <-; auto.
    - intros Hs. destruct (enum_written _ _ H) as (vs0 & Hd0 & Hvs0). assert (vs0 = vs) as -> by (apply units_same; [exact Hvs0|apply H0]).
      clear H. rename Hd0 into H. apply (int_written id _ _ Hvs0) in H0. unfold enum_variants in H1. rewrite attrs_written in H1.
      eapply ints_sound; eauto.
      destruct (supp_derived _ _ _ _ _ _ _ _ Hs) as [_ Hsup].
      inversion Hsup as [? E0|? E0|? E0|? E0 _ Hr|? E0 _ Hdd|? w rep E0 Hin Hnw]; rewrite H in E0; try discriminate; injection E0 as <-.
      + destruct Hr. apply H0.
      + apply Hdd. destruct (enum_code pe pp uni D ev loose E id vs H Hs) as (c & ws & l' & _ & Hdet & Hsk & _).
        rewrite (Hdet _ H1) in H2. now apply (Hsk n).
      + destruct Hnw. now apply H0.
    - intros Hs. destruct (variant_written _ _ _ _ H) as (v0 & H' & Hf0). clear H. rename H' into H. apply (fewer_unit v0 v Hf0) in H0. clear Hf0. clear v. rename v0 into v. destruct H as (vs & l & Hd & Hrest). destruct (not_repr_kind vs) as [Hu|(w & Hw & Hnw)].
      + eapply units_sound; eauto. exists vs, l. split; eauto.
      + exfalso. destruct (supported_rep pe pp uni D ev loose E id vs Hd Hs w Hw Hnw RepExternal n v) as [Hsup _]; [exists vs, l; auto|].
        unfold variant_supported in Hsup. rewrite H0 in Hsup. destruct Hsup as [tag Ht]. discriminate.
    - intros Hs. destruct (variant_written _ _ _ _ H) as (v0 & H' & Hf0). clear H. rename H' into H. pose proof H as (vs & l & Hd & _). destruct (enum_payload _ _ _ _ _ _ Hd Hs H (IHemits _ Hf0 (supp_flat_ok _ _ _ _ Hs H))) as (Hin & Hnu & Hp).
      eapply external_sound; eauto.
    - intros Hs. destruct (variant_written _ _ _ _ H) as (v0 & H' & Hf0). clear H. rename H' into H. apply (fewer_unit v0 v Hf0) in H0. clear Hf0. clear v. rename v0 into v. pose proof H as (vs & l & Hd & _). exfalso. destruct (not_repr_kind vs) as [Hu|(w & Hw & Hnw)].
      + pose proof (unit_rep _ _ _ _ _ Hd Hs H Hu). discriminate.
      + destruct (supported_rep pe pp uni D ev loose E id vs Hd Hs w Hw Hnw _ n v H) as [Hsup _].
        unfold variant_supported in Hsup. rewrite H0 in Hsup. destruct Hsup as [tag Ht]. discriminate.
    - intros Hs. destruct (variant_written _ _ _ _ H) as (v0 & H' & Hf0). clear H. rename H' into H. pose proof H as (vs & l & Hd & _). destruct (enum_payload _ _ _ _ _ _ Hd Hs H (IHemits _ Hf0 (supp_flat_ok _ _ _ _ Hs H))) as (Hin & Hnu & Hp).
      eapply untagged_sound; eauto.
    - intros Hs. destruct (variant_written _ _ _ _ H) as (v0 & H' & Hf0). clear H. rename H' into H. apply (fewer_unit v0 v Hf0) in H0. clear Hf0. clear v. rename v0 into v. pose proof H as (vs & l & Hd & _). destruct (not_repr_kind vs) as [Hu|(w & Hw & Hnw)].
      + pose proof (unit_rep _ _ _ _ _ Hd Hs H Hu). discriminate.
      + eapply internal_unit_sound; eauto.
    - intros Hs. destruct (variant_written _ _ _ _ H) as (v0 & H' & Hf0). clear H. rename H' into H. pose proof H as (vs & l & Hd & _). destruct (enum_payload _ _ _ _ _ _ Hd Hs H (IHemits _ Hf0 (supp_flat_ok _ _ _ _ Hs H))) as (Hin & Hnu & Hp).
      eapply internal_sound; eauto.
    - intros Hs. destruct (variant_written _ _ _ _ H) as (v0 & H' & Hf0). clear H. rename H' into H. apply (fewer_unit v0 v Hf0) in H0. clear Hf0. clear v. rename v0 into v. pose proof H as (vs & l & Hd & _). exfalso. destruct (not_repr_kind vs) as [Hu|(w & Hw & Hnw)].
      + pose proof (unit_rep _ _ _ _ _ Hd Hs H Hu). discriminate.
      + destruct (supported_rep pe pp uni D ev loose E id vs Hd Hs w Hw Hnw _ n v H) as [Hsup _].
        unfold variant_supported in Hsup. rewrite H0 in Hsup. destruct Hsup as [tag0 Ht]. discriminate.
    - intros Hs. destruct (variant_written _ _ _ _ H) as (v0 & H' & Hf0). clear H. rename H' into H. pose proof H as (vs & l & Hd & _). destruct (enum_payload _ _ _ _ _ _ Hd Hs H (IHemits _ Hf0 (supp_flat_ok _ _ _ _ Hs H))) as (Hin & Hnu & Hp).
      eapply adjacent_sound; eauto.
    - intros v0 (_ & _ & _ & Hv) _. rewrite H in Hv. assert (Hv' : vs_fields v0 = FUnnamed [f]) by (destruct (vs_fields v0); try discriminate; exact Hv).
      eapply pb_newtype; [exact Hv'|]. cbv beta. intros Hq. split; [eapply emits_kinded; eauto|auto].
    - intros v0 (_ & _ & _ & Hv) _. rewrite H in Hv. assert (Hv' : vs_fields v0 = FUnnamed fs) by (destruct (vs_fields v0); try discriminate; exact Hv).
      eapply pb_tuple; eauto.
    - intros v0 (_ & Ha & _ & Hv) Hok. rewrite H in Hv. destruct (vs_fields v0) as [fs0|?|] eqn:Ev; try discriminate. rewrite <- Ha in H0.
      destruct (Hv _ _ H0 H1) as (l0 & Hl0 & Hi & Hn). eapply pb_struct; [exact Ev|exact H0|exact Hl0|].
      eapply fields_by_like; [exact Hi| | |exact IHemits].
      + intros n f Hf. destruct (Hn n f Hf) as [Hx|(Hx & Hy & _)]; auto.
      + intros n f ms' k Hin Hfl (j & Hj & Hms) Hk. destruct (Hn n f Hin) as [Hin'|(Hlo & _ & Hc)].
        * destruct (Hok _ _ _ Ev H0 Hl0 _ _ Hin' Hfl) as [Hlo Hc]. split; [exact Hlo|exact (Hc _ _ _ _ _ Hj Hms Hk)].
        * split; [exact Hlo|exact (Hc Hfl _ _ _ _ _ Hj Hms Hk)].
    - constructor.
    - now apply fb_omit.
    - apply fb_emit; auto. intros Hq. split; [eapply emits_kinded; eauto|auto].
    - apply fb_flatten; auto. exists j. auto.
    - constructor.
    - now apply ub_omit.
    - apply ub_emit; auto. intros Hq. split; [eapply emits_kinded; eauto|auto].
    - constructor.
    - constructor; auto.
    - intros ? [].
    - intros j' [<-|Hin]; auto.
    - intros ? ? [].
    - intros k' j' [[= <- <-]|Hin]; eauto.
  Qed.

  Theorem mention_meets c cx0 r cx1 j : In c calls -> harmless (mc_params c) ->
    supported_inside pe pp D loose (mc_ty c) -> derived_inside pe pp uni D ev E (mc_ty c) ->
    mention_returns E (mc_ty c) (mc_inline c) (mc_params c) cx0 r cx1 ->
    emits pe pp uni disc D1 (mc_ty c) j -> meets loose S r j.
  Proof.
    intros Hin Hp Hs Hd Hm Hj. eapply mention_sound; eauto.
    - apply vis_root. unfold call_sites. apply in_map_iff. exists c. auto.
    - apply emits_sound; auto. split; auto.
  Qed.
End Facts.

Lemma flattened_same pe pp D : flattened_kept pe pp D D.
Proof. intros id. destruct (di_data (D id)) as [vs|[fs|fs|]|]; try exact I; [intros v fs _ _|]; intros rule l n f _ _ _ _ Hx; exact Hx. Qed.
Theorem mention_fits pe pp uni disc D ev E calls cx_end : names_unambiguous E (call_sites calls) -> mentions_return E calls cx_new cx_end ->
  forall c cx0 r cx1 j, In c calls -> harmless (mc_params c) ->
    supported_inside pe pp D False (mc_ty c) -> derived_inside pe pp uni D ev E (mc_ty c) ->
    mention_returns E (mc_ty c) (mc_inline c) (mc_params c) cx0 r cx1 ->
    emits pe pp uni disc D (mc_ty c) j -> fits (cx_schemas cx_end) r j.
Proof. intros. eapply meets_fits, mention_meets; eauto using flattened_same. Qed.
Theorem mention_accepts pe pp uni disc D ev E calls cx_end : names_unambiguous E (call_sites calls) -> mentions_return E calls cx_new cx_end ->
  forall c cx0 r cx1 j, In c calls -> harmless (mc_params c) ->
    supported_inside pe pp D True (mc_ty c) -> derived_inside pe pp uni D ev E (mc_ty c) ->
    mention_returns E (mc_ty c) (mc_inline c) (mc_params c) cx0 r cx1 ->
    emits pe pp uni disc D (mc_ty c) j -> valid (cx_schemas cx_end) r j.
Proof. intros. eapply meets_valid, mention_meets; eauto using flattened_same. Qed.
