(** What was written before a type has grown is written afterwards: lemmas for PropGrow.v. *)
From Verif Require Import Attr AttrSpec AttrFacts Ast Case CaseFacts Derive DeriveSpec DeriveFacts5 Schema Gen SoundSpec GrowSpec.
From Coq Require Import Arith Lia ZArith.

Scheme emits_g := Minimality for emits Sort Prop
  with payload_g := Minimality for emits_payload Sort Prop
  with fields_g := Minimality for emits_fields Sort Prop
  with unnamed_g := Minimality for emits_unnamed Sort Prop
  with each_g := Minimality for emits_each Sort Prop
  with list_g := Minimality for emits_list Sort Prop
  with values_g := Minimality for emits_values Sort Prop.
Combined Scheme emits_mut from emits_g, payload_g, fields_g, unnamed_g, each_g, list_g, values_g.

Section Facts.
  Variable pe pp : str -> bool.
  Variable uni : N -> bool.
  Variable disc : str -> Z.
  Variable D D' : tid -> derive_input ty.
  Notation said := (said pe pp).

  (** ** What is said can be decided *)
  Lemma written_items l its : written l its -> items_written l = Some its.
  Proof.
    induction 1 as [|a l its Hn _ IH|a f items l its Hb Hm _ IH]; cbn [items_written]; [reflexivity| |]; rewrite IH.
    - destruct (is_ident OPG (at_path a)) eqn:E1; [exfalso; apply (Hn FromOpg); constructor; now apply is_ident_iff|].
      destruct (is_ident SERDE (at_path a)) eqn:E2; [exfalso; apply (Hn FromSerde); constructor; now apply is_ident_iff|].
      destruct (is_ident REPR (at_path a)) eqn:E3; [exfalso; apply (Hn FromRepr); constructor; now apply is_ident_iff|]. reflexivity.
    - rewrite Hm. destruct Hb as [Hb|Hb|Hb]; rewrite Hb; reflexivity.
  Qed.
  Lemma said_in pos l : exists xs, forall x, said pos l x <-> In x xs.
  Proof.
    destruct (items_written l) as [its|] eqn:E.
    - eexists. intros x. apply said_decide. exact E.
    - exists []. intros x. split; [|intros []]. intros (its & f & n & Hw & _). apply written_items in Hw. congruence.
  Qed.
  Lemma in_or x xs (P : Attr.setting -> Prop) : (forall y, P y <-> In y xs) -> (forall y : Attr.setting, y = x \/ y <> x) -> P x \/ ~ P x.
  Proof.
    intros H Hx. assert (Hi : In x xs \/ ~ In x xs).
    { clear H. induction xs as [|y xs IH]; [right; intros []|]. destruct IH as [IH|IH]; [left; now right|].
      destruct (Hx y) as [->|Hy]; [left; now left|right; intros [H|H]; [now apply Hy|now apply IH]]. }
    destruct Hi as [Hi|Hi]; [left; now apply H|right; intros Hp; apply Hi; now apply H].
  Qed.
  Lemma skip_or f : field_skipped pe pp (A := ty) f \/ ~ field_skipped pe pp f.
  Proof.
    unfold field_skipped. destruct (said_in PField (fs_attrs f)) as (xs & H). apply (in_or SSkip xs) in H; [exact H|].
    intros y. destruct y; first [now left|right; discriminate].
  Qed.
  Lemma vskip_or v : variant_skipped pe pp (A := ty) v \/ ~ variant_skipped pe pp v.
  Proof.
    unfold variant_skipped. destruct (said_in PVariant (vs_attrs v)) as (xs & H). apply (in_or SSkip xs) in H; [exact H|].
    intros y. destruct y; first [now left|right; discriminate].
  Qed.
  Lemma renamed_or pos l : (exists n, said pos l (SRename n)) \/ forall n, ~ said pos l (SRename n).
  Proof.
    destruct (said_in pos l) as (xs & H).
    assert (Hx : (exists n, In (SRename n) xs) \/ forall n, ~ In (SRename n) xs).
    { clear H. induction xs as [|x xs [(n & IH)|IH] ]; [right; intros n []|left; exists n; now right|].
      destruct x; try (right; intros m [Hm|Hm]; [discriminate Hm|now apply (IH m)]). left. eexists. now left. }
    destruct Hx as [(n & Hx)|Hx]; [left; exists n; now apply H|right; intros n Hn; apply (Hx n); now apply H].
  Qed.

  (** ** Names *)
  Lemma field_can_be_named r k f : ~ field_unnameable pe pp (A := ty) r k f -> exists n, field_named pe pp r k f n.
  Proof.
    intros Hu. destruct (renamed_or PField (fs_attrs f)) as [(n & Hn)|Hn]; [exists n; now apply fn_explicit|].
    destruct (apply_to_field r (source_name k f)) as [n|] eqn:E; [exists n; now apply fn_rule|].
    exfalso. apply Hu. apply field_panics in E. destruct E as [-> E]. repeat split; auto.
  Qed.
  Lemma variant_can_be_named r v : ~ variant_unnameable pe pp (A := ty) r v -> exists n, variant_named pe pp uni r v n.
  Proof.
    intros Hu. destruct (renamed_or PVariant (vs_attrs v)) as [(n & Hn)|Hn]; [exists n; now apply vn_explicit|].
    destruct (apply_to_variant uni r (unraw (vs_ident v))) as [n|] eqn:E; [exists n; now apply vn_rule|].
    exfalso. apply Hu. apply variant_panics in E. destruct E as [-> E]. repeat split; auto.
  Qed.

  (** ** Members *)
  Inductive members_grow : list (str * field_syn ty) -> list (str * field_syn ty) -> Prop :=
  | mg_nil : members_grow [] []
  | mg_keep n f f' l l' : field_kept pe pp f f' -> members_grow l l' -> members_grow ((n, f) :: l) ((n, f') :: l')
  | mg_new n f' l l' : said PField (fs_attrs f') SSkipIf -> members_grow l l' -> members_grow l ((n, f') :: l').

  Lemma kept_skipped f f' : field_kept pe pp f f' -> (field_skipped pe pp f <-> field_skipped pe pp f').
  Proof. intros (Ha & _). exact (Ha SSkip I). Qed.
  Lemma kept_named r k k' f f' n : field_kept pe pp f f' -> fs_ident f <> None -> field_named pe pp r k f n -> field_named pe pp r k' f' n.
  Proof.
    intros (Ha & _ & Hi & _) Hn [H|H H0].
    - apply fn_explicit. exact (proj1 (Ha (SRename n) I) H).
    - apply fn_rule; [intros m Hm; apply (H m); exact (proj2 (Ha (SRename m) I) Hm)|].
      unfold source_name in *. rewrite <- Hi. destruct (fs_ident f); [exact H0|now destruct Hn].
  Qed.
  Lemma fields_members r fs fs' : fields_grow pe pp fs fs' -> forall k k' l, serialised_fields pe pp r k fs l ->
    (forall j f, nth_error fs' j = Some f -> ~ field_unnameable pe pp r (k' + j) f) ->
    exists l', serialised_fields pe pp r k' fs' l' /\ members_grow l l'.
  Proof.
    induction 1 as [|f f' fs fs' Hf Hi _ IH|f' fs fs' Hf _ IH]; intros k k' l Hl Hu.
    - inversion Hl; subst. exists []. split; constructor.
    - assert (Hu' : forall j g, nth_error fs' j = Some g -> ~ field_unnameable pe pp r (S k' + j) g).
      { intros j g Hg. specialize (Hu (S j) g Hg). now replace (S k' + j) with (k' + S j) by lia. }
      inversion Hl as [|? ? ? ? Hs Hl'|? ? n ? l0 Hs Hn Hl']; subst.
      + destruct (IH _ (S k') _ Hl' Hu') as (l' & H1 & H2). exists l'. split; [|exact H2]. apply sf_skip; [now apply (kept_skipped f)|exact H1].
      + destruct (IH _ (S k') _ Hl' Hu') as (l' & H1 & H2). exists ((n, f') :: l'). split.
        * apply sf_keep; [rewrite <- (kept_skipped f f' Hf); exact Hs| |exact H1]. eapply kept_named; eauto.
        * now constructor.
    - assert (Hu' : forall j g, nth_error fs' j = Some g -> ~ field_unnameable pe pp r (S k' + j) g).
      { intros j g Hg. specialize (Hu (S j) g Hg). now replace (S k' + j) with (k' + S j) by lia. }
      destruct (IH _ (S k') _ Hl Hu') as (l' & H1 & H2). destruct (skip_or f') as [Hs|Hs].
      + exists l'. split; [now apply sf_skip|exact H2].
      + destruct Hf as [Hf|Hf]; [contradiction|].
        destruct (field_can_be_named r k' f') as (n & Hn); [specialize (Hu 0 f' eq_refl); now rewrite Nat.add_0_r in Hu|].
        exists ((n, f') :: l'). split; [now apply sf_keep|now apply mg_new].
  Qed.

  Lemma vkept_skipped v v' : variant_kept pe pp v v' -> (variant_skipped pe pp v <-> variant_skipped pe pp v').
  Proof. intros (Ha & _). exact (Ha SSkip I). Qed.
  Lemma vkept_named r v v' n : variant_kept pe pp v v' -> variant_named pe pp uni r v n -> variant_named pe pp uni r v' n.
  Proof.
    intros (Ha & Hi & _) [H|H H0].
    - apply vn_explicit. exact (proj1 (Ha (SRename n) I) H).
    - apply vn_rule; [intros m Hm; apply (H m); exact (proj2 (Ha (SRename m) I) Hm)|]. now rewrite <- Hi.
  Qed.
  Lemma variants_members r vs vs' : variants_grow pe pp vs vs' -> forall l, serialised_variants pe pp uni r vs l ->
    (forall v, In v vs' -> ~ variant_unnameable pe pp r v) ->
    exists l', serialised_variants pe pp uni r vs' l' /\ forall n v, In (n, v) l -> exists v', In (n, v') l' /\ In v' vs' /\ variant_kept pe pp v v'.
  Proof.
    induction 1 as [|v v' vs vs' Hv _ IH|v' vs vs' _ IH]; intros l Hl Hu.
    - inversion Hl; subst. exists []. split; [constructor|intros n v []].
    - assert (Hu' : forall w, In w vs' -> ~ variant_unnameable pe pp r w) by (intros w Hw; apply Hu; now right).
      inversion Hl as [|? ? ? Hs Hl'|? n ? l0 Hs Hn Hl']; subst; destruct (IH _ Hl' Hu') as (l' & H1 & H2).
      + exists l'. split; [apply sv_skip; [now apply (vkept_skipped v)|exact H1]|].
        intros n w Hw. destruct (H2 n w Hw) as (w' & Ha & Hb & Hc). exists w'. split; [exact Ha|]. split; [now right|exact Hc].
      + exists ((n, v') :: l'). split; [apply sv_keep; [rewrite <- (vkept_skipped v v' Hv); exact Hs|eapply vkept_named; eauto|exact H1]|].
        intros m w [ [= <- <-]|Hw].
        * exists v'. split; [now left|]. split; [now left|exact Hv].
        * destruct (H2 m w Hw) as (w' & Ha & Hb & Hc). exists w'. split; [now right|]. split; [now right|exact Hc].
    - assert (Hu' : forall w, In w vs' -> ~ variant_unnameable pe pp r w) by (intros w Hw; apply Hu; now right).
      destruct (IH _ Hl Hu') as (l' & H1 & H2).
      assert (H2' : forall n v, In (n, v) l -> exists w, In (n, w) l' /\ In w (v' :: vs') /\ variant_kept pe pp v w).
      { intros n w Hw. destruct (H2 n w Hw) as (w' & Ha & Hb & Hc). exists w'. split; [exact Ha|]. split; [now right|exact Hc]. }
      destruct (vskip_or v') as [Hs|Hs]; [exists l'; split; [now apply sv_skip|exact H2']|].
      destruct (variant_can_be_named r v') as (n & Hn); [apply Hu; now left|].
      exists ((n, v') :: l'). split; [now apply sv_keep|]. intros m w Hw. destruct (H2' m w Hw) as (w' & Ha & Hc). exists w'. split; [now right|exact Hc].
  Qed.
  Lemma grow_in vs vs' : variants_grow pe pp vs vs' -> forall v, In v vs -> exists v', In v' vs' /\ variant_kept pe pp v v'.
  Proof.
    induction 1 as [|v v' vs vs' Hv _ IH|v' vs vs' _ IH]; intros w Hw; [destruct Hw| |].
    - destruct Hw as [<-|Hw]; [exists v'; split; [now left|exact Hv]|]. destruct (IH w Hw) as (w' & H1 & H2). exists w'. split; [now right|exact H2].
    - destruct (IH w Hw) as (w' & H1 & H2). exists w'. split; [now right|exact H2].
  Qed.
  Lemma kept_unit v v' : variant_kept pe pp v v' -> (unit_variant v <-> unit_variant v').
  Proof.
    intros (_ & _ & _ & H). unfold unit_variant. destruct (vs_fields v), (vs_fields v'); try destruct H; split; intros E; try discriminate E; reflexivity.
  Qed.

  Lemma agree_rule pos l l' r : agree pe pp pos l l' -> (has_rule pe pp pos l r <-> has_rule pe pp pos l' r).
  Proof.
    intros Ha. assert (Hr : forall x, said pos l (SRenameAll x) <-> said pos l' (SRenameAll x)) by (intros x; exact (Ha (SRenameAll x) I)).
    unfold has_rule. split; intros [H|[H H'] ].
    - left. now apply Hr.
    - right. split; [exact H|]. intros x Hx. apply (H' x). now apply Hr.
    - left. now apply Hr.
    - right. split; [exact H|]. intros x Hx. apply (H' x). now apply Hr.
  Qed.
  Lemma agree_represents l l' rep : agree pe pp (PContainer DkEnum) l l' -> represents pe pp l rep -> represents pe pp l' rep.
  Proof.
    intros Ha. assert (Ht : forall x, said (PContainer DkEnum) l (STag x) <-> said (PContainer DkEnum) l' (STag x)) by (intros x; exact (Ha (STag x) I)).
    assert (Hc : forall x, said (PContainer DkEnum) l (SContent x) <-> said (PContainer DkEnum) l' (SContent x)) by (intros x; exact (Ha (SContent x) I)).
    assert (Hu : said (PContainer DkEnum) l SUntagged <-> said (PContainer DkEnum) l' SUntagged) by exact (Ha SUntagged I).
    intros H. destruct H as [H1 H2 H3|H1 H2 H3|t H1 H2 H3|t c H1 H2 H3|t H1 H2|c H1 H2|c H1 H2].
    - apply rep_external; [intros x Hx; apply (H1 x); now apply Ht|intros x Hx; apply (H2 x); now apply Hc|intros Hx; apply H3; now apply Hu].
    - apply rep_untagged; [intros x Hx; apply (H1 x); now apply Ht|intros x Hx; apply (H2 x); now apply Hc|now apply Hu].
    - apply rep_internal; [now apply Ht|intros x Hx; apply (H2 x); now apply Hc|intros Hx; apply H3; now apply Hu].
    - apply rep_adjacent; [now apply Ht|now apply Hc|intros Hx; apply H3; now apply Hu].
    - eapply rep_tag_untagged; [apply Ht; eassumption|now apply Hu].
    - eapply rep_content_untagged; [apply Hc; eassumption|now apply Hu].
    - eapply rep_content_only; [apply Hc; eassumption|intros x Hx; apply (H2 x); now apply Ht].
  Qed.
  Lemma given_discriminants vs : forall next v z, In (v, z) (discriminants disc next vs) -> (forall w, In w vs -> vs_discriminant w <> None) ->
    exists d, vs_discriminant v = Some d /\ z = disc d.
  Proof.
    induction vs as [|v vs IH]; intros next w z H Hd; [destruct H|]. cbn [discriminants] in H.
    destruct (vs_discriminant v) as [d|] eqn:E; [|now destruct (Hd v (or_introl eq_refl))].
    destruct H as [ [= <- <-]|H]; [exists d; auto|]. apply (IH _ _ _ H). intros x Hx. apply Hd. now right.
  Qed.
  Lemma discriminant_in vs : forall next v d, In v vs -> vs_discriminant v = Some d -> In (v, disc d) (discriminants disc next vs).
  Proof.
    induction vs as [|w vs IH]; intros next v d Hv Hd; [destruct Hv|]. cbn [discriminants]. destruct Hv as [->|Hv].
    - rewrite Hd. now left.
    - right. now apply IH.
  Qed.

  (** ** What is written *)
  Hypothesis Hg : grows pe pp D D'.
  Notation old := (emits pe pp uni disc D).
  Notation new := (emits pe pp uni disc D').

  (** from a type to its wider ones: it is enough to know the cases that do not put something around it *)
  Lemma rises (t : ty) (j : json) :
    new t j ->
    (forall t0 t', t = TOption t0 -> wider t0 t' -> new (TOption t') j) ->
    (forall w t0 t', w <> WTuple1 -> t = TWrap w t0 -> wider t0 t' -> new t' j) ->
    (forall ts ts', t = TTuple ts -> Forall2 wider ts ts' -> new (TTuple ts') j) ->
    (forall k k' t0 t', t = TSeq k t0 -> (forall n, k' = KArray n -> k = KArray n) -> wider t0 t' -> new (TSeq k' t') j) ->
    (forall k k' t0 t', t = TDict k t0 -> wider t0 t' -> new (TDict k' t') j) ->
    (forall p p', t = TPrim p -> wider (TPrim p) (TPrim p') -> new (TPrim p') j) ->
    forall t', wider t t' -> new t' j.
  Proof.
    intros Hs Ho Hw Ht Hq Hd Hp t' H. induction H as [t|t t' H IH|t t' H IH|w t t' Hn H IH|w t t' Hn H IH|ts ts' H|k k' t t' Hk H IH|k k' t t' H IH
      |p p' s b s' b' H1 H2 H3|p p' H1 H2].
    - exact Hs.
    - apply em_some. now apply IH.
    - eapply Ho; [reflexivity|exact H].
    - apply em_wrap; [exact Hn|]. now apply IH.
    - eapply Hw; [exact Hn|reflexivity|exact H].
    - eapply Ht; [reflexivity|exact H].
    - eapply Hq; [reflexivity|exact Hk|exact H].
    - eapply Hd; [reflexivity|exact H].
    - eapply Hp; [reflexivity|]. eapply wd_int; eassumption.
    - eapply Hp; [reflexivity|]. eapply wd_text; eassumption.
  Qed.
  Lemma named_rises id j : new (TNamed id) j -> forall t', wider (TNamed id) t' -> new t' j.
  Proof. intros H. apply rises; [exact H|..]; intros; discriminate. Qed.

  Lemma prim_rises p p' j : prim_emits p j -> wider (TPrim p) (TPrim p') -> prim_emits p' j.
  Proof.
    intros Hj Hw. inversion Hw as [|?|?|?|?|?|?|?|? ? s b s' b' H1 H2 H3|? ? H1 H2]; subst; [exact Hj| |].
    - inversion Hj as [? E|? ? Hi E|? ? ? z Hp Hr|? ? Hi E|? ? Hi E|E]; subst; try discriminate H1.
      + cbn in Hi. destruct Hi as [<-|[<-|[<-|[<-|[<-|[<-|[] ] ] ] ] ] ]; discriminate H1.
      + rewrite H1 in Hp. injection Hp as <- <-. eapply pm_int; [exact H2|].
        assert (Hb : (8 <= b <= b')%Z).
        { split; [destruct p; try discriminate H1; injection H1 as <- <-; lia|]. destruct H3 as [ [_ H3]|(_ & _ & H3)]; lia. }
        assert (Hpow : (2 ^ b <= 2 ^ b')%Z) by (apply Z.pow_le_mono_r; lia).
        assert (Hpow1 : (2 ^ (b - 1) <= 2 ^ (b' - 1))%Z) by (apply Z.pow_le_mono_r; lia).
        unfold in_range in *. destruct H3 as [ [<- _]|(-> & -> & H3)]; [destruct s; lia|].
        assert (Hpow2 : (2 ^ b <= 2 ^ (b' - 1))%Z) by (apply Z.pow_le_mono_r; lia). assert (0 <= 2 ^ (b' - 1))%Z by (apply Z.pow_nonneg; lia). lia.
      + destruct Hi as [->| ->]; discriminate H1.
      + destruct Hi as [->| ->]; discriminate H1.
    - assert (Hs : exists x, j = JStr x).
      { inversion Hj as [? E|? ? Hi E|? ? ? z Hp Hr|? ? Hi E|? ? Hi E|E]; subst; try (eexists; reflexivity).
        - destruct H1 as [->|[->| ->] ]; discriminate Hp.
        - destruct H1 as [->|[->| ->] ]; destruct Hi; discriminate.
        - destruct H1 as [->|[->| ->] ]; destruct Hi; discriminate.
        - destruct H1 as [H1|[H1|H1] ]; discriminate H1. }
      destruct Hs as (x & ->). apply pm_text. destruct H2 as [->| ->]; cbn; tauto.
  Qed.

  Lemma variant_rises id rep n v : enum_variant pe pp uni (D id) rep n v ->
    exists v', enum_variant pe pp uni (D' id) rep n v' /\ variant_kept pe pp v v' /\ exists vs', di_data (D' id) = DaEnum vs' /\ In v' vs'.
  Proof.
    intros (vs & l & Hd & Hw & Hr & (r & Hru & Hl) & Hin). destruct (Hg id) as (_ & Hgr & Hu).
    destruct Hgr as [fs fs' E|fs fs' E|f f' (fs & k & E & _)|vs0 vs' E E' Ha Hv Hi|[E|E] ]; rewrite Hd in E; try discriminate E. injection E as <-.
    destruct (variants_members r vs vs' Hv l Hl) as (l' & Hl' & Hall).
    { intros w Hin' Hun. apply Hu. eapply unn_variant; [exact E'|exact Hin'| |exact Hun]. now apply (agree_rule _ _ _ _ Ha). }
    destruct (Hall n v Hin) as (v' & H1 & H2 & H3). exists v'. split; [|split; [exact H3|exists vs'; now split] ].
    exists vs', l'. split; [exact E'|]. split.
    - intros [Hs Hall']. apply Hw. split; [exact (proj2 (Ha SRepr I) Hs)|]. intros w Hw'. destruct (grow_in _ _ Hv w Hw') as (w' & H4 & H5).
      apply (kept_unit w w' H5). now apply Hall'.
    - split; [eapply agree_represents; eassumption|]. split; [exists r; split; [now apply (agree_rule _ _ _ _ Ha)|exact Hl']|exact H1].
  Qed.

  Lemma same_length (fs fs' : list (field_syn ty)) : Forall2 (field_kept pe pp) fs fs' -> length fs = length fs'.
  Proof. induction 1; cbn; congruence. Qed.

  (** a payload, in a variant of the new source *)
  Definition payload_rises (v : variant_syn ty) (j : json) : Prop :=
    forall id vs' v', di_data (D' id) = DaEnum vs' -> In v' vs' -> variant_kept pe pp v v' -> emits_payload pe pp uni disc D' v' j.

  Lemma written_still :
    (forall t j, old t j -> forall t', wider t t' -> new t' j) /\
    (forall v j, emits_payload pe pp uni disc D v j -> payload_rises v j) /\
    (forall l ms, emits_fields pe pp uni disc D l ms -> forall l', members_grow l l' -> emits_fields pe pp uni disc D' l' ms) /\
    (forall fs l, emits_unnamed pe pp uni disc D fs l -> forall fs', Forall2 (field_kept pe pp) fs fs' -> emits_unnamed pe pp uni disc D' fs' l) /\
    (forall ts l, emits_each pe pp uni disc D ts l -> forall ts', Forall2 wider ts ts' -> emits_each pe pp uni disc D' ts' l) /\
    (forall t l, emits_list pe pp uni disc D t l -> forall t', wider t t' -> emits_list pe pp uni disc D' t' l) /\
    (forall t l, emits_values pe pp uni disc D t l -> forall t', wider t t' -> emits_values pe pp uni disc D' t' l).
  Proof.
    apply emits_mut.
    - (* prim *) intros p j Hj. apply rises; try (intros; discriminate); [now apply em_prim|]. intros p0 p' [= <-] Hw. apply em_prim. eapply prim_rises; eassumption.
    - (* wrap *) intros w t j Hw _ IH. apply rises; try (intros; discriminate).
      + apply em_wrap; [exact Hw|]. apply IH, wd_same.
      + intros w0 t0 t' _ [= <- <-] Ht. now apply IH.
    - (* tuple1 *) intros t j _ IH. apply rises; try (intros; discriminate).
      + apply em_tuple1. apply IH, wd_same.
      + intros w0 t0 t' Hn [= <- <-] Ht. now destruct Hn.
    - (* none *) intros t. apply rises; try (intros; discriminate); [apply em_none|]. intros t0 t' _ _. apply em_none.
    - (* some *) intros t j _ IH. apply rises; try (intros; discriminate); [apply em_some, IH, wd_same|]. intros t0 t' [= <-] Ht. apply em_some. now apply IH.
    - (* tuple *) intros ts l _ IH. apply rises; try (intros; discriminate).
      + apply em_tuple, IH. clear. induction ts; constructor; [apply wd_same|exact IHts].
      + intros ts0 ts' [= <-] Ht. apply em_tuple. now apply IH.
    - (* seq *) intros k t l _ IH Hk. apply rises; try (intros; discriminate).
      + apply em_seq; [apply IH, wd_same|exact Hk].
      + intros k0 k' t0 t' [= <- <-] Hk' Ht. apply em_seq; [now apply IH|]. intros n Hn. apply Hk. now apply Hk'.
    - (* dict *) intros k t l _ IH Hk. apply rises; try (intros; discriminate).
      + apply em_dict; [apply IH, wd_same|exact Hk].
      + intros k0 k' t0 t' [= <- <-] Ht. apply em_dict; [now apply IH|exact Hk].
    - (* struct *) intros id fs rule l ms Hd Hn Ht Hr Hl _ IH. apply named_rises. destruct (Hg id) as (_ & Hgr & Hu).
      destruct Hgr as [fs0 fs' E E' Hs Ha Hf|fs0 fs' E|f f' (fs0 & k & E & -> & Hs & _)|vs0 vs' E|[E|E] ]; rewrite Hd in E; try discriminate E; injection E as <-.
      + destruct (fields_members rule fs fs' Hf 0 0 l Hl) as (l' & H1 & H2).
        { intros j f Hj Hun. apply Hu. eapply unn_field with (fs := FNamed fs'); [exact E'| |exact Hj|exact Hun]. rewrite E'. now apply (agree_rule _ _ _ _ Ha). }
        eapply em_struct; [exact E'|intros Hx; apply Hn; exact (proj2 (Ha STransparent I) Hx)|intros t Hx; apply (Ht t); exact (proj2 (Ha (STag t) I) Hx)
          |apply (agree_rule _ _ _ _ Ha); exact Hr|exact H1|now apply IH].
      + contradiction.
    - (* tagged struct *) intros id fs rule l ms tag n Hd Hn Ht Hname Hr Hl _ IH. apply named_rises. destruct (Hg id) as (Hid & Hgr & Hu).
      destruct Hgr as [fs0 fs' E E' Hs Ha Hf|fs0 fs' E|f f' (fs0 & k & E & -> & Hs & _)|vs0 vs' E|[E|E] ]; rewrite Hd in E; try discriminate E; injection E as <-.
      + destruct (fields_members rule fs fs' Hf 0 0 l Hl) as (l' & H1 & H2).
        { intros j f Hj Hun. apply Hu. eapply unn_field with (fs := FNamed fs'); [exact E'| |exact Hj|exact Hun]. rewrite E'. now apply (agree_rule _ _ _ _ Ha). }
        eapply em_struct_tagged; [exact E'|intros Hx; apply Hn; exact (proj2 (Ha STransparent I) Hx)|exact (proj1 (Ha (STag tag) I) Ht)
          | |apply (agree_rule _ _ _ _ Ha); exact Hr|exact H1|now apply IH].
        destruct Hname as [Hx|[Hx ->] ]; [left; exact (proj1 (Ha (SRename n) I) Hx)|right]. split; [|now rewrite Hid].
        intros m Hm. apply (Hx m). exact (proj2 (Ha (SRename m) I) Hm).
      + contradiction.
    - (* tuple struct *) intros id fs l Hd Hlen Hn _ IH. apply named_rises. destruct (Hg id) as (_ & Hgr & Hu).
      destruct Hgr as [fs0 fs' E|fs0 fs' E E' Hs Ha Hf|f f' (fs0 & k & E & -> & Hs & _)|vs0 vs' E|[E|E] ]; rewrite Hd in E; try discriminate E; injection E as <-.
      + apply em_tuple_struct with (fs := fs'); [exact E'|now rewrite <- (same_length _ _ Hf)|intros Hx; apply Hn; exact (proj2 (Ha STransparent I) Hx)|now apply IH].
      + contradiction.
    - (* transparent *) intros id f j Hf _ IH. apply named_rises. destruct (Hg id) as (_ & Hgr & Hu).
      destruct Hf as (fs & k & Hd & -> & Hs & Hin & Hsk & Hone).
      destruct Hgr as [fs0 fs' E E' Hs' Ha Hf|fs0 fs' E E' Hs' Ha Hf|f0 f' (fs0 & k & E & _ & _ & Hin0 & Hsk0 & _) Hf' Hw|vs0 vs' E|[E|E] ]; rewrite Hd in E; try discriminate E;
        injection E as ->; try contradiction.
      + apply em_transparent with (f := f'); [exact Hf'|]. apply IH. rewrite <- (Hone f0 Hin0 Hsk0). exact Hw.
    - (* newtype *) intros id f j Hd _ IH. apply named_rises. destruct (Hg id) as (_ & Hgr & Hu).
      destruct Hgr as [fs0 fs' E|fs0 fs' E E' Hs Ha Hf|f0 f' (fs0 & k & E & -> & Hs & Hin & _) Hf' Hw|vs0 vs' E|[E|E] ]; rewrite Hd in E; try discriminate E; injection E as <-.
      + inversion Hf as [|? f' ? ? Hf0 Hnil]; subst. inversion Hnil; subst. eapply em_newtype; [exact E'|]. apply IH. exact (proj2 (proj2 (proj2 Hf0))).
      + destruct Hin as [<-|[] ]. apply em_transparent with (f := f'); [exact Hf'|]. now apply IH.
    - (* repr *) intros id vs l n v z Hd Hw (r & Hru & Hl) Hin Hz. apply named_rises. destruct (Hg id) as (_ & Hgr & Hu).
      destruct Hgr as [fs fs' E|fs fs' E|f f' (fs & k & E & _)|vs0 vs' E E' Ha Hv Hi|[E|E] ]; rewrite Hd in E; try discriminate E. injection E as <-.
      destruct (Hi Hw) as [Hw' Hdisc]. destruct (variants_members r vs vs' Hv l Hl) as (l' & Hl' & Hall).
      { intros w Hin' Hun. apply Hu. eapply unn_variant; [exact E'|exact Hin'| |exact Hun]. now apply (agree_rule _ _ _ _ Ha). }
      destruct (Hall n v Hin) as (v' & H1 & H2 & H3). destruct (given_discriminants vs 0%Z v z Hz Hdisc) as (d & Hd' & ->).
      eapply em_repr; [exact E'|exact Hw'|exists r; split; [now apply (agree_rule _ _ _ _ Ha)|exact Hl']|exact H1|].
      apply discriminant_in; [exact H2|]. rewrite <- Hd'. symmetry. exact (proj1 (proj2 (proj2 H3))).
    - intros id n v Hv Hunit. apply named_rises. destruct (variant_rises _ _ _ _ Hv) as (v' & H1 & H2 & _). eapply em_external_unit; [exact H1|]. now apply (kept_unit v).
    - intros id n v j Hv _ IH. apply named_rises. destruct (variant_rises _ _ _ _ Hv) as (v' & H1 & H2 & vs' & H3 & H4). eapply em_external; [exact H1|]. eapply IH; eassumption.
    - intros id n v Hv Hunit. apply named_rises. destruct (variant_rises _ _ _ _ Hv) as (v' & H1 & H2 & _). eapply em_untagged_unit; [exact H1|]. now apply (kept_unit v).
    - intros id n v j Hv _ IH. apply named_rises. destruct (variant_rises _ _ _ _ Hv) as (v' & H1 & H2 & vs' & H3 & H4). eapply em_untagged; [exact H1|]. eapply IH; eassumption.
    - intros id tag n v Hv Hunit. apply named_rises. destruct (variant_rises _ _ _ _ Hv) as (v' & H1 & H2 & _). eapply em_internal_unit; [exact H1|]. now apply (kept_unit v).
    - intros id tag n v ms Hv _ IH Hno. apply named_rises. destruct (variant_rises _ _ _ _ Hv) as (v' & H1 & H2 & vs' & H3 & H4). eapply em_internal; [exact H1| |exact Hno]. eapply IH; eassumption.
    - intros id tag content n v Hv Hunit. apply named_rises. destruct (variant_rises _ _ _ _ Hv) as (v' & H1 & H2 & _). eapply em_adjacent_unit; [exact H1|]. now apply (kept_unit v).
    - intros id tag content n v j Hv _ IH. apply named_rises. destruct (variant_rises _ _ _ _ Hv) as (v' & H1 & H2 & vs' & H3 & H4). eapply em_adjacent; [exact H1|]. eapply IH; eassumption.
    - (* payloads *) intros v f j Hf _ IH id vs' v' _ _ (_ & _ & _ & Hk). rewrite Hf in Hk. destruct (vs_fields v') as [?|fs'|] eqn:E; try contradiction.
      inversion Hk as [|? f' ? ? Hf0 Hnil]; subst. inversion Hnil; subst. eapply ep_newtype; [exact E|]. apply IH. exact (proj2 (proj2 (proj2 Hf0))).
    - intros v fs l Hf Hlen _ IH id vs' v' _ _ (_ & _ & _ & Hk). rewrite Hf in Hk. destruct (vs_fields v') as [?|fs'|] eqn:E; try contradiction.
      eapply ep_tuple; [exact E|now rewrite <- (same_length _ _ Hk)|now apply IH].
    - intros v fs rule l ms Hf Hr Hl _ IH id vs' v' Hd Hin (Ha & _ & _ & Hk). rewrite Hf in Hk. destruct (vs_fields v') as [fs'|?|] eqn:E; try contradiction.
      destruct (Hg id) as (_ & _ & Hu). assert (Hr' : has_rule pe pp PVariant (vs_attrs v') rule) by now apply (agree_rule _ _ _ _ Ha).
      destruct (fields_members rule fs fs' Hk 0 0 l Hl) as (l' & H1 & H2).
      { intros j f Hj Hun. apply Hu. eapply unn_variant_field; [exact Hd|exact Hin|exact Hr'|rewrite E; exact Hj|exact Hun]. }
      eapply ep_struct; [exact E|exact Hr'|exact H1|now apply IH].
    - (* fields *) intros l' Hl. remember [] as l eqn:El. induction Hl; [constructor|discriminate|]. apply ef_omit; auto.
    - intros n f l ms Hs _ IH l' Hl. remember ((n, f) :: l) as l0 eqn:El. induction Hl as [|m g g' k k' Hk Hl _|m g' k k' Hn Hl IHl]; [discriminate| |].
      + injection El as -> -> ->. apply ef_omit; [exact (proj1 (proj2 Hk) Hs)|now apply IH].
      + apply ef_omit; [exact Hn|now apply IHl].
    - intros n f l j ms Hs _ IHj _ IH l' Hl. remember ((n, f) :: l) as l0 eqn:El. induction Hl as [|m g g' k k' Hk Hl _|m g' k k' Hn Hl IHl]; [discriminate| |].
      + injection El as -> -> ->. apply ef_emit; [intros Hx; apply Hs; exact (proj2 (proj1 Hk SFlatten I) Hx)|apply IHj; exact (proj2 (proj2 (proj2 Hk)))|now apply IH].
      + apply ef_omit; [exact Hn|now apply IHl].
    - intros n f l j ms' ms Hs _ IHj Hfl _ IH l' Hl. remember ((n, f) :: l) as l0 eqn:El. induction Hl as [|m g g' k k' Hk Hl _|m g' k k' Hn Hl IHl]; [discriminate| |].
      + injection El as -> -> ->. apply ef_flatten with (j := j); [exact (proj1 (proj1 Hk SFlatten I) Hs)|apply IHj; exact (proj2 (proj2 (proj2 Hk)))|exact Hfl|now apply IH].
      + apply ef_omit; [exact Hn|now apply IHl].
    - (* unnamed *) intros fs' H. inversion H; subst. constructor.
    - intros f fs l Hs _ IH fs' H. inversion H as [|? f' ? fs0 Hk Hr]; subst. apply eu_omit; [|now apply IH].
      destruct Hs as [Hs|Hs]; [left; now apply (kept_skipped f)|right; exact (proj1 (proj2 Hk) Hs)].
    - intros f fs j l Hs _ IHj _ IH fs' H. inversion H as [|? f' ? fs0 Hk Hr]; subst.
      apply eu_emit; [rewrite <- (kept_skipped f f' Hk); exact Hs|apply IHj; exact (proj2 (proj2 (proj2 Hk)))|now apply IH].
    - intros ts' H. inversion H; subst. constructor.
    - intros t ts j l _ IHj _ IH ts' H. inversion H; subst. constructor; auto.
    - intros t t' _. constructor.
    - intros t j l _ IHj _ IH t' H. constructor; auto.
    - intros t t' _. constructor.
    - intros t k j l _ IHj _ IH t' H. constructor; auto.
  Qed.
  Lemma written_by_the_wider t t' j : wider t t' -> old t j -> new t' j.
  Proof. intros Hw Ho. exact (proj1 written_still t j Ho t' Hw). Qed.
End Facts.

(** ** The schemas of the new version *)
From Verif Require Import SchemaSpec GenSpec Doc Api SerSpec ApiSpec SoundFacts4 SoundFacts5.
Theorem grown_mention_accepts pe pp uni disc D D' ev E calls cx_end : grows pe pp D D' ->
  names_unambiguous E (call_sites calls) -> mentions_return E calls cx_new cx_end ->
  forall c cx0 r cx1 t j, In c calls -> harmless (mc_params c) ->
  supported_inside pe pp D' True (mc_ty c) -> derived_inside pe pp uni D' ev E (mc_ty c) ->
  mention_returns E (mc_ty c) (mc_inline c) (mc_params c) cx0 r cx1 ->
  wider t (mc_ty c) -> emits pe pp uni disc D t j -> valid (cx_schemas cx_end) r j.
Proof.
  intros Hg Hn Hm c cx0 r cx1 t j Hc Hh Hs Hd Hr Hw Hj. eapply mention_accepts; try eassumption. eapply written_by_the_wider; eassumption.
Qed.
Section Bodies.
  Variable pe pp : str -> bool.
  Variable uni : N -> bool.
  Variable disc : str -> Z.
  Variable D D' : tid -> derive_input ty.
  Variable ev : str -> str.
  Variable E : env.
  Variable reason : N -> option str.
  Variable seg : list tree -> option segment.
  Variable a : api.
  Variable d : opg.
  Hypothesis Hg : grows pe pp D D'.
  Hypothesis Hd : describes E reason seg a d.
  Hypothesis Hun : forall ts, (forall t, In t ts <-> names_type seg a t) -> names_unambiguous E (map (fun t => SMention t false) ts).

  Lemma grown_body_accepts o x : has_operation (og_paths d) o -> op_body o = Some x ->
    exists l b t, declares_operation a l /\ op_means E reason (callback_means E reason seg) l o /\ In (OpBody b) l /\ body_type b t /\
      (supported_inside pe pp D' True t -> derived_inside pe pp uni D' ev E t ->
       forall t0 j, wider t0 t -> emits pe pp uni disc D t0 j -> valid (cx_schemas (og_components d)) (rb_schema x) j).
  Proof.
    intros Ho Hx. destruct (body_accepts pe pp uni disc D' ev E reason seg a d Hd Hun o x Ho Hx) as (l & b & t & H1 & H2 & H3 & H4 & H5).
    exists l, b, t. repeat (split; [assumption|]). intros Hs Hdv t0 j Hw Hj. apply H5; [exact Hs|exact Hdv|]. eapply written_by_the_wider; eassumption.
  Qed.
  Lemma grown_response_accepts o c x r : has_operation (og_paths d) o -> bm_get c (op_responses o) = Some x -> rs_schema x = Some r ->
    exists l desc s, declares_operation a l /\ op_means E reason (callback_means E reason seg) l o /\ In (OpResponse c desc s) l /\
      (s = RsRaw (Some r) \/ exists t, response_type s t /\
        (supported_inside pe pp D' True t -> derived_inside pe pp uni D' ev E t ->
         forall t0 j, wider t0 t -> emits pe pp uni disc D t0 j -> valid (cx_schemas (og_components d)) r j)).
  Proof.
    intros Ho Hx Hr. destruct (response_accepts pe pp uni disc D' ev E reason seg a d Hd Hun o c x r Ho Hx Hr) as (l & g & s & H1 & H2 & H3 & H4).
    exists l, g, s. repeat (split; [assumption|]). destruct H4 as [H4|(t & H4 & H5)]; [now left|]. right. exists t. split; [exact H4|].
    intros Hs Hdv t0 j Hw Hj. apply H5; [exact Hs|exact Hdv|]. eapply written_by_the_wider; eassumption.
  Qed.
End Bodies.
