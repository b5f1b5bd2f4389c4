(** From attributes to the container: what the parsed container says of its input. *)
From Verif Require Import Attr AttrSpec AttrFacts Ast Derive DeriveSpec Schema SchemaSpec Gen GenSpec CaseSpec CaseFacts.
From Coq Require Import Arith Lia.

(** the style of a list of fields *)
Definition style_of {A} (f : fields_syn A) : struct_style :=
  match f with
  | FNamed _ => StStruct
  | FUnnamed l => if Nat.eqb (length l) 1 then StNewType else StTuple
  | FUnit => StUnit
  end.

Section Facts.
  Variable pe pp : str -> bool.
  Variable uni : N -> bool.
  Notation said := (said pe pp).
  Notation takes := (takes pe pp).
  Notation flag_takes := (flag_takes pe pp).
  Notation acceptable := (acceptable pe pp).

  (** ** Slots *)

  Record slots_say (pos : position) (l : list attribute) (s : slots) : Prop := {
    ss_rename : takes pos l SRename (s_rename s);
    ss_rename_all : takes pos l SRenameAll (s_rename_all s);
    ss_transparent : flag_takes pos l STransparent (is_some (s_transparent s));
    ss_untagged : flag_takes pos l SUntagged (is_some (s_untagged s));
    ss_tag : takes pos l STag (s_tag s);
    ss_content : takes pos l SContent (s_content s);
    ss_repr : flag_takes pos l SRepr (is_some (s_repr s));
    ss_skip : flag_takes pos l SSkip (is_some (s_skip s));
    ss_skip_if : flag_takes pos l SSkipIf (is_some (s_skip_if s));
    ss_flatten : flag_takes pos l SFlatten (is_some (s_flatten s));
    ss_optional : flag_takes pos l SOptional (is_some (s_optional s));
    ss_description : takes pos l SDescription (s_description s);
    ss_format : takes pos l SFormat (s_format s);
    ss_example : takes pos l SExample (s_example s);
    ss_inline : flag_takes pos l SInline (is_some (s_inline s));
    ss_nullable : flag_takes pos l SNullable (is_some (s_nullable s));
    ss_types : takes pos l SType (fst (at_most_one (s_types s)))
  }.

  Lemma parse_slots pos l s : parse_attrs pe pp pos l = (s, []) -> length (s_types s) <= 1 -> slots_say pos l s.
  Proof.
    intros H Ht.
    let tk x := (eapply takes_olist with (k := x); [intros v w [=]; auto|reflexivity|reflexivity|exact H]) in
    constructor;
      try (eapply flag_olist; [| |exact H]; reflexivity); [..|now apply takes_types];
      [tk KRename|tk KRenameAll|tk KTag|tk KContent|tk KDescription|tk KFormat|tk KExample].
  Qed.

  Lemma takes_fun {T} pos l (mk : T -> setting) o1 o2 : takes pos l mk o1 -> takes pos l mk o2 -> o1 = o2.
  Proof.
    intros H1 H2. destruct o1 as [v|].
    - symmetry. apply H2, H1. reflexivity.
    - destruct o2 as [v|]; auto. apply H1, H2. reflexivity.
  Qed.
  Lemma flag_fun pos l x b1 b2 : flag_takes pos l x b1 -> flag_takes pos l x b2 -> b1 = b2.
  Proof. unfold AttrSpec.flag_takes. intros H1 H2. destruct b1, b2; intuition. Qed.
  Lemma takes_None {T} pos l (mk : T -> setting) o : takes pos l mk o -> (o = None <-> forall v, ~ said pos l (mk v)).
  Proof.
    intros H. split.
    - intros -> v Hv. apply H in Hv. discriminate.
    - intros Hn. destruct o as [v|]; auto. destruct (Hn v). now apply H.
  Qed.

  Lemma has_rule_takes pos l o r : takes pos l SRenameAll o -> (has_rule pe pp pos l r <-> r = rule_or_none o).
  Proof.
    intros H. unfold has_rule. destruct o as [r0|]; cbn.
    - assert (said pos l (SRenameAll r0)) by (apply H; reflexivity). split.
      + intros [Hs|[_ Hn]]; [|exfalso; eapply Hn; eauto]. apply H in Hs. congruence.
      + intros ->. auto.
    - apply takes_None in H. destruct H as [H _]. specialize (H eq_refl). split.
      + intros [Hs|[-> _]]; auto. destruct (H _ Hs).
      + intros ->. auto.
  Qed.

  (** ** Fields and variants *)

  Lemma field_ok_iff src l : snd (field_from_ast pe pp src l) = [] <-> acceptable PField l.
  Proof.
    rewrite <- parse_accept. unfold field_from_ast, ok_state. destruct (parse_attrs pe pp PField l) as [s es]. cbn.
    rewrite <- at_most_one_ok. unfold at_most_one. cbn [snd]. split.
    - intros H. now apply app_eq_nil in H.
    - intros [-> H]. exact H.
  Qed.

  Lemma field_say src l a : field_from_ast pe pp src l = (a, []) ->
    exists s, slots_say PField l s /\ a = fst (field_from_ast pe pp src l) /\
      fa_name a = name_from src (s_rename s) /\ fa_skip a = is_some (s_skip s) /\
      fa_flatten a = is_some (s_flatten s) /\
      fa_optional a = is_some (s_skip_if s) || is_some (s_optional s) /\ fa_description a = s_description s /\
      fa_format a = s_format s /\ fa_example a = s_example s /\ fa_inline a = is_some (s_inline s) /\
      fa_nullable a = is_some (s_nullable s) /\ fa_explicit a = fst (at_most_one (s_types s)).
  Proof.
    intros H. unfold field_from_ast in *. destruct (parse_attrs pe pp PField l) as [s es] eqn:E.
    destruct (at_most_one (s_types s)) as [t dup] eqn:Et. injection H as <- He. apply app_eq_nil in He as [-> ->].
    exists s. split.
    - apply parse_slots; auto. apply at_most_one_ok. now rewrite Et.
    - rewrite Et. cbn. repeat split.
  Qed.

  Lemma variant_ok_iff id l : snd (variant_from_ast pe pp id l) = [] <-> acceptable PVariant l.
  Proof.
    rewrite <- parse_accept. unfold variant_from_ast, ok_state. destruct (parse_attrs pe pp PVariant l) as [s es]. cbn.
    rewrite <- at_most_one_ok. unfold at_most_one. cbn [snd]. split.
    - intros H. now apply app_eq_nil in H.
    - intros [-> H]. exact H.
  Qed.

  Lemma variant_say id l a : variant_from_ast pe pp id l = (a, []) ->
    exists s, slots_say PVariant l s /\
      va_name a = name_from (unraw id) (s_rename s) /\ va_rename_rule a = rule_or_none (s_rename_all s) /\
      va_skip a = is_some (s_skip s) /\ va_description a = s_description s /\
      va_format a = s_format s /\ va_example a = s_example s /\ va_inline a = is_some (s_inline s) /\
      va_explicit a = fst (at_most_one (s_types s)).
  Proof.
    intros H. unfold variant_from_ast in *. destruct (parse_attrs pe pp PVariant l) as [s es] eqn:E.
    destruct (at_most_one (s_types s)) as [t dup] eqn:Et. injection H as <- He. apply app_eq_nil in He as [-> ->].
    exists s. split.
    - apply parse_slots; auto. apply at_most_one_ok. now rewrite Et.
    - rewrite Et. cbn. repeat split.
  Qed.

  Section Data.
  Context {A : Type}.

  (** what a parsed and renamed field says of its source *)
  Record field_parsed (r : rename_rule) (i : nat) (f : field_syn A) (g : field A) : Prop := {
    fp_acc : acceptable PField (fs_attrs f);
    fp_ty : f_ty g = fs_ty f;
    fp_name : field_named pe pp r i f (n_serialized (fa_name (f_attrs g)));
    fp_skip : flag_takes PField (fs_attrs f) SSkip (fa_skip (f_attrs g));
    fp_flatten : flag_takes PField (fs_attrs f) SFlatten (fa_flatten (f_attrs g));
    fp_optional : fa_optional (f_attrs g) = true <-> field_optional pe pp f;
    fp_description : takes PField (fs_attrs f) SDescription (fa_description (f_attrs g));
    fp_format : takes PField (fs_attrs f) SFormat (fa_format (f_attrs g));
    fp_example : takes PField (fs_attrs f) SExample (fa_example (f_attrs g));
    fp_inline : flag_takes PField (fs_attrs f) SInline (fa_inline (f_attrs g));
    fp_nullable : flag_takes PField (fs_attrs f) SNullable (fa_nullable (f_attrs g));
    fp_explicit : takes PField (fs_attrs f) SType (fa_explicit (f_attrs g))
  }.
  Inductive fields_parsed (r : rename_rule) : nat -> list (field_syn A) -> list (field A) -> Prop :=
  | fsp_nil i : fields_parsed r i [] []
  | fsp_cons i f g fs gs : field_parsed r i f g -> fields_parsed r (S i) fs gs -> fields_parsed r i (f :: fs) (g :: gs).

  Record variant_parsed (r : rename_rule) (v : variant_syn A) (w : variant A) : Prop := {
    vp_acc : acceptable PVariant (vs_attrs v);
    vp_name : variant_named pe pp uni r v (n_serialized (va_name (v_attrs w)));
    vp_rule : has_rule pe pp PVariant (vs_attrs v) (va_rename_rule (v_attrs w));
    vp_skip : flag_takes PVariant (vs_attrs v) SSkip (va_skip (v_attrs w));
    vp_description : takes PVariant (vs_attrs v) SDescription (va_description (v_attrs w));
    vp_format : takes PVariant (vs_attrs v) SFormat (va_format (v_attrs w));
    vp_example : takes PVariant (vs_attrs v) SExample (va_example (v_attrs w));
    vp_inline : flag_takes PVariant (vs_attrs v) SInline (va_inline (v_attrs w));
    vp_style : v_style w = style_of (vs_fields v);
    vp_disc : v_discriminant w = vs_discriminant v;
    vp_fields : fields_parsed (va_rename_rule (v_attrs w)) 0 (fields_list (vs_fields v)) (v_fields w)
  }.

  (** *** Renaming *)

  Lemma rename_field_parsed r i (f : field_syn A) a es g :
    field_from_ast pe pp (source_name i f) (fs_attrs f) = (a, es) -> es = [] ->
    rename_field r {| f_attrs := a; f_ty := fs_ty f |} = Some g -> field_parsed r i f g.
  Proof.
    intros Hf -> Hr.
    assert (Hacc : acceptable PField (fs_attrs f)).
    { apply (field_ok_iff (source_name i f)). now rewrite Hf. }
    apply field_say in Hf as (s & Hs & _ & Hn & H1 & H2 & H3 & H4 & H5 & H6 & H7 & H8 & H9).
    unfold rename_field in Hr. cbn [f_attrs f_ty] in Hr.
    destruct (rename_as_field r (fa_name a)) as [n|] eqn:En; [|discriminate]. injection Hr as <-.
    destruct Hs. constructor; cbn -[field_optional]; auto; rewrite ?H1, ?H2, ?H3, ?H4, ?H5, ?H6, ?H7, ?H8, ?H9; auto.
    - unfold rename_as_field in En. rewrite Hn in En. unfold name_from in En. cbn in En.
      destruct (s_rename s) as [x|] eqn:Ex; cbn in En.
      + injection En as <-. cbn. apply fn_explicit. now apply ss_rename0.
      + destruct (apply_to_field r (source_name i f)) as [y|] eqn:Ey; [|discriminate]. injection En as <-. cbn.
        apply fn_rule; auto. now apply (takes_None _ _ _ _ ss_rename0).
    - unfold field_optional. rewrite orb_true_iff. unfold AttrSpec.flag_takes in *. tauto.
  Qed.

  Lemma rename_field_None r i (f : field_syn A) a es :
    field_from_ast pe pp (source_name i f) (fs_attrs f) = (a, es) -> es = [] ->
    (rename_field r {| f_attrs := a; f_ty := fs_ty f |} = None <-> field_unnameable pe pp r i f).
  Proof.
    intros Hf ->. apply field_say in Hf as (s & Hs & _ & Hn & _).
    unfold rename_field. cbn [f_attrs f_ty]. unfold rename_as_field. rewrite Hn. unfold name_from. cbn.
    unfold field_unnameable. destruct Hs. destruct (s_rename s) as [x|] eqn:Ex; cbn.
    - split; [discriminate|]. intros (_ & Hno & _). destruct (Hno x). now apply ss_rename0.
    - pose proof (proj1 (takes_None _ _ _ _ ss_rename0) eq_refl) as Hno.
      pose proof (field_panics r (source_name i f)) as Hp.
      destruct (apply_to_field r (source_name i f)) as [y|] eqn:Ey.
      + split; [discriminate|]. intros (Hr & _ & Hc). exfalso. enough (Some y = None) by discriminate.
        apply Hp. split; auto.
      + split; auto. intros _. destruct (proj1 Hp eq_refl) as [Hr Hc]. split; auto.
  Qed.

  Lemma fields_errors i (fs : list (field_syn A)) : snd (fields_from_ast pe pp i fs) = [] <->
    forall f, In f fs -> acceptable PField (fs_attrs f).
  Proof.
    revert i. induction fs as [|f fs IH]; intros i; cbn [fields_from_ast].
    - cbn. intuition.
    - destruct (field_from_ast pe pp (source_name i f) (fs_attrs f)) as [a es] eqn:E.
      pose proof (field_ok_iff (source_name i f) (fs_attrs f)) as Ho. rewrite E in Ho. cbn in Ho.
      specialize (IH (S i)). destruct (fields_from_ast pe pp (S i) fs) as [rest es'] eqn:E2. cbn in IH.
      unfold source_name in E. rewrite E. cbn.
      split.
      + intros H. apply app_eq_nil in H as [H1 H2]. intros f' [<-|Hin]; [now apply Ho | now apply IH].
      + intros H. assert (es = []) as -> by (apply Ho, H; auto). cbn. apply IH. auto.
  Qed.

  Lemma fields_parse r i (fs : list (field_syn A)) gs0 : fields_from_ast pe pp i fs = (gs0, []) ->
    match try_map (rename_field r) gs0 with
    | Some gs => fields_parsed r i fs gs
    | None => exists k f, nth_error fs k = Some f /\ field_unnameable pe pp r (i + k) f
    end.
  Proof.
    revert i gs0. induction fs as [|f fs IH]; intros i gs0; cbn [fields_from_ast].
    - intros [= <-]. constructor.
    - fold (source_name i f).
      destruct (field_from_ast pe pp (source_name i f) (fs_attrs f)) as [a es] eqn:E.
      destruct (fields_from_ast pe pp (S i) fs) as [rest es'] eqn:E2.
      intros [= <- He]. apply app_eq_nil in He as [-> ->]. cbn [try_map].
      specialize (IH _ _ E2).
      destruct (rename_field r {| f_attrs := a; f_ty := fs_ty f |}) as [g|] eqn:Eg.
      + fold (try_map (rename_field (A := A) r)). destruct (try_map (rename_field r) rest) as [gs|].
        * constructor; auto. eapply rename_field_parsed; eauto.
        * destruct IH as (k & f' & Hk & Hu). exists (S k), f'. split; auto. now rewrite Nat.add_succ_r.
      + exists 0, f. split; auto. rewrite Nat.add_0_r. eapply rename_field_None; eauto.
  Qed.

  Lemma field_parsed_nameable r i f g : field_parsed r i f g -> ~ field_unnameable pe pp r i f.
  Proof.
    intros [] (-> & Hno & Hc). destruct fp_name0 as [Hs|_ Ha]; [eapply Hno; eauto|].
    enough (apply_to_field RCamelCase (source_name i f) = None) by congruence. apply field_panics. split; auto.
  Qed.
  Lemma fields_parsed_nameable r i fs gs : fields_parsed r i fs gs ->
    forall k f, nth_error fs k = Some f -> ~ field_unnameable pe pp r (i + k) f.
  Proof.
    induction 1 as [|i f g fs gs H1 H2 IH]; intros k f0; [now destruct k|].
    destruct k as [|k]; cbn.
    - intros [= <-]. rewrite Nat.add_0_r. eapply field_parsed_nameable; eauto.
    - intros Hk. rewrite Nat.add_succ_r. now apply (IH k).
  Qed.

  Lemma struct_from_ast_eq (f : fields_syn A) : struct_from_ast pe pp f =
    (style_of f, fst (fields_from_ast pe pp 0 (fields_list f)), snd (fields_from_ast (A := A) pe pp 0 (fields_list f))).
  Proof.
    destruct f as [l|l|]; cbn; auto; destruct (fields_from_ast pe pp 0 l); reflexivity.
  Qed.

  (** the renaming of a variant fails *)
  Definition variant_bad (r : rename_rule) (v : variant_syn A) : Prop :=
    variant_unnameable pe pp r v \/
    exists r' k f, has_rule pe pp PVariant (vs_attrs v) r' /\ nth_error (fields_list (vs_fields v)) k = Some f /\
      field_unnameable pe pp r' k f.

  Lemma rename_variant_parse r (v : variant_syn A) a gs0 :
    variant_from_ast pe pp (vs_ident v) (vs_attrs v) = (a, []) ->
    fields_from_ast pe pp 0 (fields_list (vs_fields v)) = (gs0, []) ->
    match rename_variant uni r {| v_ident := vs_ident v; v_attrs := a; v_style := style_of (vs_fields v);
                                  v_fields := gs0; v_discriminant := vs_discriminant v |} with
    | Some w => variant_parsed r v w
    | None => variant_bad r v
    end.
  Proof.
    intros Hv Hf.
    assert (Hacc : acceptable PVariant (vs_attrs v)).
    { apply (variant_ok_iff (vs_ident v)). now rewrite Hv. }
    apply variant_say in Hv as (s & Hs & Hn & Hrule & H1 & H2 & H3 & H4 & H5 & H6).
    destruct Hs. unfold rename_variant. cbn [v_attrs v_fields v_ident v_style v_discriminant].
    assert (Hhas : has_rule pe pp PVariant (vs_attrs v) (va_rename_rule a)).
    { eapply has_rule_takes; eauto. }
    destruct (rename_as_variant uni r (va_name a)) as [n|] eqn:En.
    - pose proof (fields_parse (va_rename_rule a) _ _ _ Hf) as Hfs.
      destruct (try_map (rename_field (va_rename_rule a)) gs0) as [gs|].
      + constructor; cbn; auto; rewrite ?H1, ?H2, ?H3, ?H4, ?H5; auto.
        unfold rename_as_variant in En. rewrite Hn in En. unfold name_from in En. cbn in En.
        destruct (s_rename s) as [x|] eqn:Ex; cbn in En.
        * injection En as <-. cbn. apply vn_explicit. now apply ss_rename0.
        * destruct (apply_to_variant uni r (unraw (vs_ident v))) as [y|] eqn:Ey; [|discriminate]. injection En as <-. cbn.
          apply vn_rule; auto. now apply (takes_None _ _ _ _ ss_rename0).
      + destruct Hfs as (k & f & Hk & Hu). right. exists (va_rename_rule a), k, f. auto.
    - left. unfold rename_as_variant in En. rewrite Hn in En. unfold name_from in En. cbn in En.
      destruct (s_rename s) as [x|] eqn:Ex; cbn in En; [discriminate|].
      destruct (apply_to_variant uni r (unraw (vs_ident v))) as [y|] eqn:Ey; [discriminate|].
      apply variant_panics in Ey as [-> Hc]. split; auto. split; auto. now apply (takes_None _ _ _ _ ss_rename0).
  Qed.

  Lemma has_rule_fun pos l o r1 r2 : takes pos l SRenameAll o ->
    has_rule pe pp pos l r1 -> has_rule pe pp pos l r2 -> r1 = r2.
  Proof. intros H H1 H2. apply (has_rule_takes _ _ _ _ H) in H1, H2. congruence. Qed.

  Lemma acceptable_takes pos l : acceptable pos l -> exists s, slots_say pos l s.
  Proof.
    intros H. apply parse_accept in H. destruct (parse_attrs pe pp pos l) as [s es] eqn:E. destruct H as [H1 H2].
    cbn in *. subst es. exists s. now apply parse_slots.
  Qed.

  Lemma has_rule_fun' pos l r1 r2 : acceptable pos l ->
    has_rule pe pp pos l r1 -> has_rule pe pp pos l r2 -> r1 = r2.
  Proof. intros H. apply acceptable_takes in H as [s []]. eapply has_rule_fun; eauto. Qed.

  Lemma has_rule_total pos l : acceptable pos l -> exists r, has_rule pe pp pos l r.
  Proof. intros H. apply acceptable_takes in H as [s []]. eexists. eapply has_rule_takes; eauto. Qed.

  Lemma variant_parsed_nameable r v w : variant_parsed r v w -> ~ variant_bad r v.
  Proof.
    intros [] [(-> & Hno & Hc)|(r' & k & f & Hr & Hk & Hu)].
    - destruct vp_name0 as [Hs|_ Ha]; [eapply Hno; eauto|].
      enough (apply_to_variant uni RCamelCase (unraw (vs_ident v)) = None) by congruence. apply variant_panics. split; auto.
    - assert (r' = va_rename_rule (v_attrs w)) as -> by (eapply has_rule_fun'; eauto).
      eapply fields_parsed_nameable in vp_fields0; eauto.
  Qed.

  Lemma variants_errors (vs : list (variant_syn A)) : snd (variants_from_ast pe pp vs) = [] <->
    forall v, In v vs -> variant_acceptable pe pp (A := A) v.
  Proof.
    induction vs as [|v vs IH]; cbn [variants_from_ast].
    - cbn. intuition.
    - destruct (variant_from_ast pe pp (vs_ident v) (vs_attrs v)) as [a es] eqn:E.
      pose proof (variant_ok_iff (vs_ident v) (vs_attrs v)) as Ho. rewrite E in Ho. cbn in Ho.
      rewrite struct_from_ast_eq. pose proof (fields_errors 0 (fields_list (vs_fields v))) as Hf.
      destruct (fields_from_ast pe pp 0 (fields_list (vs_fields v))) as [gs es1]. cbn in Hf |- *.
      destruct (variants_from_ast pe pp vs) as [l es2]. cbn in IH |- *. split.
      + intros H. apply app_eq_nil in H as [H1 H]. apply app_eq_nil in H as [H2 H3].
        intros v' [<-|Hin]; [|now apply IH]. split; [now apply Ho|]. intros f. now apply Hf.
      + intros H. destruct (H v (or_introl eq_refl)) as [Hv Hfs].
        assert (es = []) as -> by now apply Ho. assert (es1 = []) as -> by (apply Hf; exact Hfs). cbn. apply IH. auto.
  Qed.

  Lemma variants_parse r (vs : list (variant_syn A)) ws0 : variants_from_ast pe pp vs = (ws0, []) ->
    match try_map (rename_variant uni r) ws0 with
    | Some ws => Forall2 (variant_parsed r) vs ws
    | None => exists v, In v vs /\ variant_bad r v
    end.
  Proof.
    revert ws0. induction vs as [|v vs IH]; intros ws0; cbn [variants_from_ast].
    - intros [= <-]. constructor.
    - destruct (variant_from_ast pe pp (vs_ident v) (vs_attrs v)) as [a es] eqn:E.
      rewrite struct_from_ast_eq.
      destruct (fields_from_ast pe pp 0 (fields_list (vs_fields v))) as [gs es1] eqn:E1. cbn [fst snd].
      destruct (variants_from_ast pe pp vs) as [l es2] eqn:E2.
      intros [= <- He]. apply app_eq_nil in He as [-> He]. apply app_eq_nil in He as [-> ->].
      cbn [try_map]. specialize (IH _ eq_refl).
      pose proof (rename_variant_parse r v a gs E E1) as Hv.
      destruct (rename_variant uni r _) as [w|].
      + fold (try_map (rename_variant (A := A) uni r)). destruct (try_map (rename_variant uni r) l) as [ws|].
        * constructor; auto.
        * destruct IH as (v' & Hin & Hb). exists v'. cbn. auto.
      + exists v. cbn. auto.
  Qed.

  (** *** Containers *)

  Definition rep_of (t : tag_type) : representation :=
    match t with
    | TagExternal => RepExternal | TagNone => RepUntagged
    | TagInternal t => RepInternal t | TagAdjacent t c => RepAdjacent t c
    end.

  Lemma represents_iff l u t c rep :
    flag_takes (PContainer DkEnum) l SUntagged (is_some u) -> takes (PContainer DkEnum) l STag t ->
    takes (PContainer DkEnum) l SContent c ->
    (represents pe pp l rep <-> rep = rep_of (decide_tag u t c)).
  Proof.
    intros Hu Ht Hc. unfold AttrSpec.flag_takes in Hu.
    pose proof (takes_None _ _ _ _ Ht) as Ht0. pose proof (takes_None _ _ _ _ Hc) as Hc0.
    assert (Hu' : u = None <-> ~ said (PContainer DkEnum) l SUntagged).
    { rewrite <- Hu. destruct u; cbn; intuition congruence. }
    assert (Hu'' : u = Some tt <-> said (PContainer DkEnum) l SUntagged).
    { rewrite <- Hu. destruct u as [[]|]; cbn; intuition congruence. }
    split.
    - intros H. inversion H; subst;
        repeat match goal with
        | H : forall x, ~ said _ _ (STag x) |- _ => apply Ht0 in H
        | H : forall x, ~ said _ _ (SContent x) |- _ => apply Hc0 in H
        | H : ~ said _ _ SUntagged |- _ => apply Hu' in H
        | H : said _ _ SUntagged |- _ => apply Hu'' in H
        | H : said _ _ (STag _) |- _ => apply Ht in H
        | H : said _ _ (SContent _) |- _ => apply Hc in H
        end; subst; unfold decide_tag; cbn;
        repeat match goal with |- context [match ?x with _ => _ end] => is_var x; destruct x end; reflexivity.
    - intros ->. destruct u as [[]|], t as [t|], c as [c|]; cbn.
      + eapply rep_tag_untagged; [now apply Ht | now apply Hu''].
      + eapply rep_tag_untagged; [now apply Ht | now apply Hu''].
      + eapply rep_content_untagged; [now apply Hc | now apply Hu''].
      + apply rep_untagged; [now apply Ht0|now apply Hc0|now apply Hu''].
      + apply rep_adjacent; [now apply Ht|now apply Hc|now apply Hu'].
      + apply rep_internal; [now apply Ht|now apply Hc0|now apply Hu'].
      + eapply rep_content_only; [now apply Hc|now apply Ht0].
      + apply rep_external; [now apply Ht0|now apply Hc0|now apply Hu'].
  Qed.

  Definition all_units (vs : list (variant_syn A)) : Prop := forall v, In v vs -> unit_variant v.
  Lemma all_units_iff vs : forallb (fun v => is_unit (vs_fields v)) vs = true <-> all_units vs.
  Proof.
    rewrite forallb_forall. unfold all_units, unit_variant. split; intros H v Hv; specialize (H v Hv);
      destruct (vs_fields v); cbn in *; congruence.
  Qed.

  Inductive data_parsed (r : rename_rule) : data_syn A -> data A -> Prop :=
  | dp_enum vs ws : Forall2 (variant_parsed r) vs ws -> data_parsed r (DaEnum vs) (Enum ws)
  | dp_struct f gs : fields_parsed r 0 (fields_list f) gs -> data_parsed r (DaStruct f) (Struct (style_of f) gs).

  Record container_parsed (i : derive_input A) (c : container A) : Prop := {
    cp_acc : acceptable (PContainer (shape (di_data i))) (di_attrs i);
    cp_ident : c_ident c = di_ident i;
    cp_rule : has_rule pe pp (PContainer (shape (di_data i))) (di_attrs i) (ca_rename_rule (c_attrs c));
    cp_data : data_parsed (ca_rename_rule (c_attrs c)) (di_data i) (c_data c);
    cp_repr : flag_takes (PContainer (shape (di_data i))) (di_attrs i) SRepr (ca_has_repr (c_attrs c));
    cp_description : takes (PContainer (shape (di_data i))) (di_attrs i) SDescription (ca_description (c_attrs c));
    cp_format : takes (PContainer (shape (di_data i))) (di_attrs i) SFormat (ca_format (c_attrs c));
    cp_example : takes (PContainer (shape (di_data i))) (di_attrs i) SExample (ca_example (c_attrs c));
    cp_inline : flag_takes (PContainer (shape (di_data i))) (di_attrs i) SInline (ca_inline (c_attrs c));
    cp_nullable : flag_takes (PContainer (shape (di_data i))) (di_attrs i) SNullable (ca_nullable (c_attrs c));
    cp_explicit : takes (PContainer (shape (di_data i))) (di_attrs i) SType (ca_explicit (c_attrs c));
    cp_tag : forall vs rep, di_data i = DaEnum vs ->
      (represents pe pp (di_attrs i) rep <-> rep = rep_of (ca_tag_type (c_attrs c)));
    cp_kind : ca_model_kind (c_attrs c) = fst (decide_model_kind (di_data i) (ca_tag_type (c_attrs c)));
    cp_kind_ok : snd (decide_model_kind (di_data i) (ca_tag_type (c_attrs c))) = []
  }.

  Lemma kind_of_data_eq (d : data_syn A) : kind_of_data d = shape d.
  Proof. reflexivity. Qed.

  Lemma container_attrs_say (i : derive_input A) a es : container_attrs_from_ast pe pp i = (a, es) ->
    (es = [] <-> acceptable (PContainer (shape (di_data i))) (di_attrs i) /\
                 snd (decide_model_kind (di_data i) (ca_tag_type a)) = []).
  Proof.
    unfold container_attrs_from_ast. rewrite kind_of_data_eq, <- parse_accept. unfold ok_state.
    destruct (parse_attrs pe pp (PContainer (shape (di_data i))) (di_attrs i)) as [s es0].
    destruct (at_most_one (s_types s)) as [t dup] eqn:Et.
    destruct (decide_model_kind (di_data i) _) as [mk bad] eqn:Ed. intros [= <- <-]. cbn. rewrite Ed. cbn.
    rewrite <- at_most_one_ok, Et. cbn. split.
    - intros H. apply app_eq_nil in H as [-> H]. apply app_eq_nil in H as [-> ->]. auto.
    - intros [[-> ->] ->]. reflexivity.
  Qed.

  Lemma container_attrs_slots (i : derive_input A) a : container_attrs_from_ast pe pp i = (a, []) ->
    exists s, slots_say (PContainer (shape (di_data i))) (di_attrs i) s /\
      ca_rename_rule a = rule_or_none (s_rename_all s) /\
      ca_tag_type a = decide_tag (s_untagged s) (s_tag s) (s_content s) /\
      ca_has_repr a = is_some (s_repr s) /\ ca_description a = s_description s /\ ca_format a = s_format s /\
      ca_example a = s_example s /\ ca_inline a = is_some (s_inline s) /\ ca_nullable a = is_some (s_nullable s) /\
      ca_explicit a = fst (at_most_one (s_types s)) /\
      ca_model_kind a = fst (decide_model_kind (di_data i) (ca_tag_type a)).
  Proof.
    unfold container_attrs_from_ast. rewrite kind_of_data_eq.
    destruct (parse_attrs pe pp (PContainer (shape (di_data i))) (di_attrs i)) as [s es0] eqn:E.
    destruct (at_most_one (s_types s)) as [t dup] eqn:Et.
    destruct (decide_model_kind (di_data i) _) as [mk bad] eqn:Ed. intros [= <- He].
    apply app_eq_nil in He as [-> He]. apply app_eq_nil in He as [-> ->].
    exists s. split.
    - apply parse_slots; auto. apply at_most_one_ok. now rewrite Et.
    - cbn [ca_rename_rule ca_tag_type ca_has_repr ca_description ca_format ca_example ca_inline ca_nullable ca_explicit ca_model_kind].
      rewrite Ed, Et. repeat split.
  Qed.

  Lemma mixed_iff (vs : list (variant_syn A)) : consistent_discriminants vs = false <-> mixed_discriminants (A := A) vs.
  Proof.
    unfold mixed_discriminants. destruct vs as [|v vs]; cbn.
    - split; [discriminate|]. intros (v & w & d & [] & _).
    - split.
      + intros H. assert (exists w, In w vs /\ Bool.eqb (is_some (vs_discriminant w)) (is_some (vs_discriminant v)) = false).
        { clear -H. induction vs as [|w vs IH]; cbn in *; [discriminate|]. apply andb_false_iff in H as [H|H].
          - exists w. auto.
          - destruct (IH H) as (w' & H1 & H2). exists w'. auto. }
        destruct H0 as (w & Hin & Hne). destruct (vs_discriminant v) as [d|] eqn:Ev, (vs_discriminant w) as [d'|] eqn:Ew;
          cbn in Hne; try discriminate.
        * exists v, w, d. auto.
        * exists w, v, d'. auto.
      + intros (a & b & d & Ha & Hb & Hda & Hdb).
        destruct (forallb (fun w => Bool.eqb (is_some (vs_discriminant w)) (is_some (vs_discriminant v))) vs) eqn:E; auto.
        rewrite forallb_forall in E. exfalso.
        assert (Hall : forall w, v = w \/ In w vs -> is_some (vs_discriminant w) = is_some (vs_discriminant v)).
        { intros w [->|Hw]; auto. apply Bool.eqb_prop. auto. }
        pose proof (Hall a Ha) as H1. pose proof (Hall b Hb) as H2. rewrite Hda in H1. rewrite Hdb in H2. cbn in *. congruence.
  Qed.

  Lemma attributes_iff (i : derive_input A) : attributes_acceptable pe pp i <->
    acceptable (PContainer (shape (di_data i))) (di_attrs i) /\
    match di_data i with
    | DaEnum vs => forall v, In v vs -> variant_acceptable pe pp v
    | DaStruct f => fields_acceptable pe pp f
    | DaUnion => True
    end.
  Proof.
    unfold attributes_acceptable. split.
    - intros H. split; [apply H; constructor|]. destruct (di_data i) as [vs|f|] eqn:E; auto.
      + intros v Hv. split; [apply H; eapply aa_variant; eauto|]. intros x Hx. apply H. eapply aa_variant_field; eauto.
      + intros x Hx. apply H. eapply aa_field; eauto.
    - intros [H1 H2] pos l [|vs v E Hv|vs v f E Hv Hf|fs f E Hf]; auto; rewrite E in H2.
      + now apply H2.
      + now apply (H2 v).
      + now apply H2.
  Qed.

  (** The errors reported: none exactly when the attributes are acceptable and the shape is supported. *)
  Lemma from_ast_errors (i : derive_input A) : snd (container_from_ast pe pp uni i) = [] <->
    attributes_acceptable pe pp i /\ ~ unsupported pe pp i.
  Proof.
    rewrite attributes_iff. unfold container_from_ast.
    destruct (container_attrs_from_ast pe pp i) as [a es] eqn:Ea.
    pose proof (container_attrs_say _ _ _ Ea) as Hes.
    assert (Htag : es = [] -> forall vs, di_data i = DaEnum vs ->
      (represents pe pp (di_attrs i) RepUntagged <-> ca_tag_type a = TagNone)).
    { intros -> vs Hd. apply container_attrs_slots in Ea as (s & [] & _ & Ht & _). rewrite Hd in *. cbn [shape] in *.
      rewrite (represents_iff _ (s_untagged s) (s_tag s) (s_content s)); auto. rewrite Ht.
      destruct (decide_tag _ _ _); cbn; split; congruence. }
    destruct (di_data i) as [vs|f|] eqn:Ed; cbn [shape] in *.
    - pose proof (mixed_iff vs) as Hm. destruct (consistent_discriminants vs) eqn:Ec.
      + pose proof (variants_errors vs) as Hv. destruct (variants_from_ast pe pp vs) as [l es'] eqn:Ev. cbn in Hv.
        transitivity (es ++ es' = []).
        { destruct (rename_data uni (ca_rename_rule a) (Enum l)); reflexivity. }
        split.
        * intros H. apply app_eq_nil in H as [-> ->]. destruct (proj1 Hes eq_refl) as [H1 H2]. split.
          -- split; auto. now apply Hv.
          -- intros Hun. destruct Hun as [E|E|vs' E Hu Hr|vs' E Hmix]; try congruence; rewrite Ed in E; injection E as <-.
             ++ apply (Htag eq_refl vs eq_refl) in Hr. rewrite Hr in H2. cbn in H2.
                rewrite (proj2 (all_units_iff vs) Hu) in H2. discriminate.
             ++ apply Hm in Hmix. discriminate.
        * intros [[H1 H2] Hun]. assert (es' = []) as -> by now apply Hv. rewrite app_nil_r. apply Hes. split; auto.
          cbn. destruct (forallb (fun v => is_unit (vs_fields v)) vs) eqn:Eu; [|now destruct (ca_tag_type a)].
          destruct (ca_tag_type a) eqn:Et; auto. exfalso. apply Hun.
          eapply un_untagged_units; [exact Ed|now apply all_units_iff|].
          unfold container_attrs_from_ast in Ea. rewrite Ed, kind_of_data_eq in Ea. cbn [shape] in Ea.
          apply parse_accept in H1. destruct (parse_attrs pe pp (PContainer DkEnum) (di_attrs i)) as [s es0] eqn:Es.
          destruct H1 as [H1 H1']. cbn in H1, H1'. subst es0.
          destruct (at_most_one (s_types s)) as [t dup] eqn:Emo. destruct (decide_model_kind _ _) as [mk bad].
          injection Ea as <- _. cbn in Et. apply parse_slots in Es as []; auto.
          rewrite (represents_iff _ (s_untagged s) (s_tag s) (s_content s)); auto. now rewrite Et.
      + cbn. split; [intros H; apply app_eq_nil in H as [_ H]; discriminate|].
        intros [_ Hun]. exfalso. apply Hun. eapply un_discriminants; eauto. now apply Hm.
    - rewrite struct_from_ast_eq. pose proof (fields_errors 0 (fields_list f)) as Hf.
      destruct (fields_from_ast pe pp 0 (fields_list f)) as [gs es']. cbn [fst snd] in *.
      transitivity (es ++ es' = []).
      { destruct (rename_data uni (ca_rename_rule a) _); reflexivity. }
      split.
      + intros H. apply app_eq_nil in H as [-> ->]. destruct (proj1 Hes eq_refl) as [H1 H2]. split.
        * split; auto. intros g. now apply Hf.
        * intros Hun. destruct Hun as [E|E|vs' E Hu Hr|vs' E Hmix]; try congruence. rewrite Ed in E. injection E as ->. discriminate.
      + intros [[H1 H2] Hun]. assert (es' = []) as -> by (apply Hf; exact H2). rewrite app_nil_r. apply Hes. split; auto.
        destruct f; cbn; auto. exfalso. apply Hun. now apply un_unit_struct.
    - cbn. split; [intros H; apply app_eq_nil in H as [_ H]; discriminate|].
      intros [_ Hun]. exfalso. apply Hun. now apply un_union.
  Qed.

  Lemma from_ast_None (i : derive_input A) : fst (container_from_ast pe pp uni i) = FaNone ->
    snd (container_from_ast pe pp uni i) <> [].
  Proof.
    unfold container_from_ast.
    destruct (container_attrs_from_ast pe pp i) as [a es] eqn:Ea.
    destruct (di_data i) as [vs|f|] eqn:Ed.
    - destruct (consistent_discriminants vs).
      + destruct (variants_from_ast pe pp vs) as [l es']. destruct (rename_data _ _ _); discriminate.
      + cbn. intros _ H. apply app_eq_nil in H as [_ H]. discriminate.
    - rewrite struct_from_ast_eq. destruct (rename_data _ _ _); discriminate.
    - cbn. intros _ H. apply app_eq_nil in H as [_ H]. discriminate.
  Qed.

  Lemma container_rule_has (i : derive_input A) a : container_attrs_from_ast pe pp i = (a, []) ->
    has_rule pe pp (PContainer (shape (di_data i))) (di_attrs i) (ca_rename_rule a).
  Proof.
    intros H. apply container_attrs_slots in H as (s & [] & Hr & _). rewrite Hr. eapply has_rule_takes; eauto.
  Qed.

  Lemma from_ast_parsed (i : derive_input A) r : container_from_ast pe pp uni i = (r, []) ->
    match r with
    | FaSome c => container_parsed i c /\ ~ unnameable pe pp i
    | FaPanic => unnameable pe pp i
    | FaNone => False
    end.
  Proof.
    intros H.
    assert (Hn : r <> FaNone).
    { intros ->. pose proof (from_ast_None i) as Hx. rewrite H in Hx. cbn in Hx. now apply Hx. }
    unfold container_from_ast in H.
    destruct (container_attrs_from_ast pe pp i) as [a es] eqn:Ea.
    assert (Hmk : forall d', es = [] -> data_parsed (ca_rename_rule a) (di_data i) d' -> container_parsed i
      {| c_ident := di_ident i;
         c_attrs := {| ca_name := ca_name a; ca_rename_rule := ca_rename_rule a;
                       ca_transparent := ca_transparent a; ca_tag_type := ca_tag_type a;
                       ca_has_flatten := ca_has_flatten a;
                       ca_has_repr := ca_has_repr a;
                       ca_description := ca_description a; ca_format := ca_format a;
                       ca_example := ca_example a; ca_inline := ca_inline a;
                       ca_nullable := ca_nullable a; ca_explicit := ca_explicit a;
                       ca_model_kind := ca_model_kind a |};
         c_data := d' |}).
    { intros d' -> Hd. pose proof (container_rule_has _ _ Ea) as Hr.
      pose proof (proj1 (container_attrs_say _ _ _ Ea) eq_refl) as [Hacc Hk].
      apply container_attrs_slots in Ea as (s & [] & H1 & H2 & H3 & H4 & H5 & H6 & H7 & H8 & H9 & H10).
      constructor; cbn [c_ident c_attrs c_data ca_rename_rule ca_has_repr ca_description ca_format ca_example ca_inline
        ca_nullable ca_explicit ca_tag_type ca_model_kind]; auto; rewrite ?H3, ?H4, ?H5, ?H6, ?H7, ?H8, ?H9; auto.
      intros vs rep Hvs. rewrite H2. rewrite Hvs in *. now apply represents_iff. }
    assert (Hpf : forall c c' : container A, container_parsed i c ->
      c_ident c = c_ident c' -> c_data c = c_data c' ->
      (ca_rename_rule (c_attrs c), ca_has_repr (c_attrs c), ca_description (c_attrs c), ca_format (c_attrs c),
       ca_example (c_attrs c), ca_inline (c_attrs c), ca_nullable (c_attrs c), ca_explicit (c_attrs c),
       ca_tag_type (c_attrs c), ca_model_kind (c_attrs c)) =
      (ca_rename_rule (c_attrs c'), ca_has_repr (c_attrs c'), ca_description (c_attrs c'), ca_format (c_attrs c'),
       ca_example (c_attrs c'), ca_inline (c_attrs c'), ca_nullable (c_attrs c'), ca_explicit (c_attrs c'),
       ca_tag_type (c_attrs c'), ca_model_kind (c_attrs c')) -> container_parsed i c').
    { intros c c' Hc E1 E2 E3. injection E3 as F1 F2 F3 F4 F5 F6 F7 F8 F9 F10. destruct Hc.
      constructor; rewrite <- ?E1, <- ?E2, <- ?F1, <- ?F2, <- ?F3, <- ?F4, <- ?F5, <- ?F6, <- ?F7, <- ?F8, <- ?F9, <- ?F10; auto. }
    destruct (di_data i) as [vs|f|] eqn:Ed.
    - destruct (consistent_discriminants vs).
      + destruct (variants_from_ast pe pp vs) as [l es'] eqn:Ev. unfold rename_data in H.
        assert (Hes : es = [] /\ es' = []).
        { destruct (try_map _ l); injection H as _ He; now apply app_eq_nil in He. }
        destruct Hes as [-> ->].
        pose proof (container_rule_has _ _ Ea) as Hr. rewrite Ed in Hr.
        pose proof (variants_parse (ca_rename_rule a) _ _ Ev) as Hv.
        destruct (try_map (rename_variant uni (ca_rename_rule a)) l) as [ws|].
        * injection H as <-. split.
          -- eapply Hpf; [apply (Hmk (Enum ws) eq_refl)|..]; try reflexivity. now constructor.
          -- intros Hu. destruct Hu as [vs' v r0 E Hin Hr0 Hu|vs' v k f r0 E Hin Hr0 Hk Hu|fs k f r0 E Hr0 Hk Hu];
               rewrite Ed in E; try discriminate; injection E as <-.
             ++ assert (r0 = ca_rename_rule a) as ->.
                { eapply has_rule_fun'; [|exact Hr0|exact Hr]. pose proof (proj1 (container_attrs_say _ _ _ Ea) eq_refl) as [Hacc _].
                  now rewrite Ed in Hacc. }
                clear -Hv Hin Hu. induction Hv as [|v0 w vs ws H0 H1 IH]; [destruct Hin|].
                destruct Hin as [->|Hin]; [|now apply IH]. eapply variant_parsed_nameable; eauto. left. auto.
             ++ clear -Hv Hin Hu Hk Hr0. induction Hv as [|v0 w vs ws H0 H1 IH]; [destruct Hin|].
                destruct Hin as [->|Hin]; [|now apply IH]. eapply variant_parsed_nameable; eauto. right. eauto 8.
        * injection H as <-. destruct Hv as (v & Hin & [Hb|(r' & k & f & Hr' & Hk & Hu)]).
          -- eapply unn_variant; eauto.
          -- eapply unn_variant_field; eauto.
      + injection H as <- _. congruence.
    - rewrite struct_from_ast_eq in H.
      destruct (fields_from_ast pe pp 0 (fields_list f)) as [gs0 es'] eqn:Ev. unfold rename_data in H. cbn [fst snd] in H.
      assert (Hes : es = [] /\ es' = []).
      { destruct (try_map _ gs0); injection H as _ He; now apply app_eq_nil in He. }
      destruct Hes as [-> ->].
      pose proof (container_rule_has _ _ Ea) as Hr.
      pose proof (fields_parse (ca_rename_rule a) _ _ _ Ev) as Hv.
      destruct (try_map (rename_field (ca_rename_rule a)) gs0) as [gs|].
      + injection H as <-. split.
        * eapply Hpf; [apply (Hmk (Struct (style_of f) gs) eq_refl)|..]; try reflexivity. now constructor.
        * intros Hu. destruct Hu as [vs' v r0 E Hin Hr0 Hu|vs' v k g r0 E Hin Hr0 Hk Hu|fs k g r0 E Hr0 Hk Hu];
            rewrite Ed in E; try discriminate; injection E as <-.
          assert (r0 = ca_rename_rule a) as ->.
          { eapply has_rule_fun'; [|exact Hr0|exact Hr]. now destruct (proj1 (container_attrs_say _ _ _ Ea) eq_refl). }
          eapply fields_parsed_nameable in Hv; eauto.
      + injection H as <-. destruct Hv as (k & g & Hk & Hu). eapply unn_field; eauto.
    - injection H as <- _. congruence.
  Qed.
  End Data.
End Facts.
