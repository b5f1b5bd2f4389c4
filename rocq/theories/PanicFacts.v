(** Exactly when the derive panics, and exactly when it reports errors. *)
From Verif Require Import Attr AttrSpec AttrFacts Ast AstFacts Case CaseSpec CaseFacts Derive DeriveSpec DeriveFacts DeriveFacts2 DeriveFacts3 Schema Gen PanicSpec.
From Coq Require Import Arith Lia.

Section Facts.
  Variable pe pp : str -> bool.
  Variable uni : N -> bool.
  Variable ev : str -> str.
  Notation derive := (derive pe pp uni ev).
  Notation heard := (heard pe pp).
  Notation says := (says pe pp).

  (** ** The first value counts *)
  Definition items_of (es : list entry) : list (attr_from * nested) :=
    flat_map (fun e => match e with Item f n => [(f, n)] | Bad _ => [] end) es.
  Lemma from_belongs a :
    match (if is_ident OPG (at_path a) then Some FromOpg else if is_ident SERDE (at_path a) then Some FromSerde
           else if is_ident REPR (at_path a) then Some FromRepr else None) with
    | Some f => belongs a f
    | None => foreign a
    end.
  Proof.
    destruct (is_ident OPG (at_path a)) eqn:E1; [apply bel_opg; now apply is_ident_iff|].
    destruct (is_ident SERDE (at_path a)) eqn:E2; [apply bel_serde; now apply is_ident_iff|].
    destruct (is_ident REPR (at_path a)) eqn:E3; [apply bel_repr; now apply is_ident_iff|].
    apply is_ident_false in E1, E2, E3. intros f [H|H|H]; [apply E1|apply E2|apply E3]; exact H.
  Qed.
  Lemma items_map f items : items_of (map (Item f) items) = map (fun n => (f, n)) items.
  Proof. induction items as [|n items IH]; [reflexivity|]. cbn [map]. rewrite <- IH. reflexivity. Qed.
  Lemma listed_items l : listed l (items_of (flat_map get_meta_items l)).
  Proof.
    induction l as [|a l IH]; [constructor|]. cbn [flat_map]. unfold items_of at 1. rewrite flat_map_app. fold (items_of (get_meta_items a)). fold (items_of (flat_map get_meta_items l)).
    unfold get_meta_items at 1. pose proof (from_belongs a) as Hb. destruct (if is_ident OPG _ then _ else _) as [f|].
    - destruct (at_meta a) as [items| |] eqn:Em.
      + rewrite items_map. now apply ls_items.
      + cbn. apply (ls_other a f); auto. congruence.
      + cbn. apply (ls_other a f); auto. congruence.
    - cbn. now apply ls_foreign.
  Qed.
  Lemma belongs_fun a f g : belongs a f -> belongs a g -> f = g.
  Proof. intros H1 H2. destruct H1 as [E|E|E], H2 as [F|F|F]; auto; rewrite E in F; discriminate. Qed.
  Lemma listed_fun l its its' : listed l its -> listed l its' -> its = its'.
  Proof.
    intros H. revert its'. induction H as [|a l its Hf H IH|a f items l its Hb Hm H IH|a f l its Hb Hm H IH]; intros its' H'.
    - now inversion H'.
    - inversion H' as [|? ? ? ? Hl|? f' ? ? ? Hb' ? Hl|? f' ? ? Hb' ? Hl]; subst; [now apply IH|destruct (Hf f' Hb')|destruct (Hf f' Hb')].
    - inversion H' as [|? ? ? Hf' Hl|? f' items' ? ? Hb' Hm' Hl|? f' ? ? Hb' Hm' Hl]; subst; [destruct (Hf' f Hb)| |destruct (Hm' _ Hm)].
      rewrite (belongs_fun _ _ _ Hb Hb'). assert (items' = items) as -> by congruence. f_equal. now apply IH.
    - inversion H' as [|? ? ? Hf' Hl|? f' items' ? ? Hb' Hm' Hl|? f' ? ? Hb' Hm' Hl]; subst; [destruct (Hf' f Hb)|destruct (Hm _ Hm')|now apply IH].
  Qed.

  Section Slot.
    Context {T : Type} (get : slots -> option T) (sel : setting -> option T) (mk : T -> setting).
    Hypothesis get_none : get no_slots = None.
    Hypothesis get_assign : forall x s, get (fst (assign x s)) = match get s with Some v => Some v | None => sel x end.
    Hypothesis sel_mk : forall x v, sel x = Some v <-> x = mk v.
    Hypothesis sel_key : forall x v, sel x = None -> key_of x <> key_of (mk v).
    Hypothesis mk_key : forall v w, key_of (mk v) = key_of (mk w).
    Fixpoint first_set (pos : position) (its : list (attr_from * nested)) : option T :=
      match its with
      | [] => None
      | (f, n) :: its' =>
          match item_action pe pp pos f n with
          | Set_ x => match sel x with Some v => Some v | None => first_set pos its' end
          | _ => first_set pos its'
          end
      end.
    Lemma fold_get pos es st : get (fst (fold_left (step pe pp pos) es st)) = match get (fst st) with Some v => Some v | None => first_set pos (items_of es) end.
    Proof.
      revert st. induction es as [|e es IH]; intros [s errs]; cbn [fold_left]; [cbn; now destruct (get s)|]. rewrite IH. cbn [fst].
      destruct e as [f n|e]; cbn [step]; [|reflexivity]. cbn [items_of flat_map app first_set]. fold (items_of es).
      destruct (item_action pe pp pos f n) as [|x|e]; cbn [fst]; [reflexivity| |reflexivity].
      pose proof (get_assign x s) as Ha. destruct (assign x s) as [s' dup]. cbn [fst] in *. rewrite Ha. destruct (get s); [reflexivity|]. now destruct (sel x).
    Qed.
    Lemma first_set_Some pos its v : first_set pos its = Some v <->
      exists l1 f n l2, its = l1 ++ (f, n) :: l2 /\ says pos f n (mk v) /\ forall f' n' y, In (f', n') l1 -> says pos f' n' y -> key_of y <> key_of (mk v).
    Proof.
      induction its as [|[f n] its IH]; cbn [first_set].
      { split; [discriminate|]. intros (l1 & f & n & l2 & H & _). destruct l1; discriminate. }
      assert (Hskip : (forall y, says pos f n y -> key_of y <> key_of (mk v)) -> (first_set pos its = Some v <->
        exists l1 f0 n0 l2, (f, n) :: its = l1 ++ (f0, n0) :: l2 /\ says pos f0 n0 (mk v) /\ forall f' n' y, In (f', n') l1 -> says pos f' n' y -> key_of y <> key_of (mk v))).
      { intros Hno. rewrite IH. split.
        - intros (l1 & f0 & n0 & l2 & -> & Hs & Hl). exists ((f, n) :: l1), f0, n0, l2. split; [reflexivity|]. split; [exact Hs|].
          intros f' n' y [[= <- <-]|Hi]; [apply Hno|now apply Hl].
        - intros (l1 & f0 & n0 & l2 & He & Hs & Hl). destruct l1 as [|p l1].
          + injection He as <- <- <-. destruct (Hno _ Hs). reflexivity.
          + injection He as <- ->. exists l1, f0, n0, l2. split; [reflexivity|]. split; [exact Hs|]. intros. eapply Hl; [right|]; eauto. }
      destruct (item_action pe pp pos f n) as [|x|e] eqn:Ea.
      - apply Hskip. intros y Hy. apply action_says_iff in Hy. congruence.
      - destruct (sel x) as [w|] eqn:Ex.
        + apply sel_mk in Ex. subst x. split.
          * intros [= ->]. exists [], f, n, its. split; [reflexivity|]. split; [now apply action_says_iff|intros f' n' y []].
          * intros (l1 & f0 & n0 & l2 & He & Hs & Hl). destruct l1 as [|p l1].
            -- injection He as <- <- <-. apply action_says_iff in Hs. rewrite Ea in Hs. injection Hs as Hs.
               assert (Hv : sel (mk w) = Some v) by (now apply sel_mk). assert (Hw : sel (mk w) = Some w) by (now apply sel_mk). congruence.
            -- injection He as <- ->. destruct (Hl f n (mk w)); [now left|now apply action_says_iff|apply mk_key].
        + apply Hskip. intros y Hy. apply action_says_iff in Hy. assert (y = x) as -> by congruence. now apply sel_key.
      - apply Hskip. intros y Hy. apply action_says_iff in Hy. congruence.
    Qed.
    Lemma slot_heard pos l v : get (fst (parse_attrs pe pp pos l)) = Some v <-> heard pos l (mk v).
    Proof.
      unfold parse_attrs. rewrite fold_get. cbn [fst]. rewrite get_none, first_set_Some. unfold PanicSpec.heard. split.
      - intros (l1 & f & n & l2 & He & Hs & Hl). exists l1, f, n, l2. split; [rewrite <- He; apply listed_items|now split].
      - intros (l1 & f & n & l2 & Hi & Hs & Hl). exists l1, f, n, l2. split; [|now split]. exact (listed_fun _ _ _ (listed_items l) Hi).
    Qed.
    Lemma slot_unheard pos l : get (fst (parse_attrs pe pp pos l)) = None <-> forall v, ~ heard pos l (mk v).
    Proof.
      split.
      - intros H v Hv. apply slot_heard in Hv. congruence.
      - intros H. destruct (get (fst (parse_attrs pe pp pos l))) as [v|] eqn:E; [|reflexivity]. destruct (H v). now apply slot_heard.
    Qed.
  End Slot.
  Definition sel_rename x := match x with SRename v => Some v | _ => None end.
  Definition sel_rule x := match x with SRenameAll v => Some v | _ => None end.
  Lemma assign_rename x s : s_rename (fst (assign x s)) = match s_rename s with Some v => Some v | None => sel_rename x end.
  Proof. destruct s as [[?|] ? ? ? ? ? ? ? ? ? ? ? ? ? ? ? ?]; destruct x; cbn; try reflexivity; unfold attr_set; repeat match goal with |- context [match ?o with _ => _ end] => destruct o end; reflexivity. Qed.
  Lemma assign_rule x s : s_rename_all (fst (assign x s)) = match s_rename_all s with Some v => Some v | None => sel_rule x end.
  Proof. destruct s as [? [?|] ? ? ? ? ? ? ? ? ? ? ? ? ? ? ?]; destruct x; cbn; try reflexivity; unfold attr_set; repeat match goal with |- context [match ?o with _ => _ end] => destruct o end; reflexivity. Qed.
  Ltac slot := first [exact assign_rename|exact assign_rule|intros [] ?; cbn; split; congruence|intros [] ?; cbn; intros ? ?; discriminate|reflexivity|intros; reflexivity].
  Lemma rename_heard pos l v : s_rename (fst (parse_attrs pe pp pos l)) = Some v <-> heard pos l (SRename v).
  Proof. apply (slot_heard s_rename sel_rename SRename); slot. Qed.
  Lemma rename_unheard pos l : s_rename (fst (parse_attrs pe pp pos l)) = None <-> forall v, ~ heard pos l (SRename v).
  Proof. apply (slot_unheard s_rename sel_rename SRename); slot. Qed.
  Lemma rule_heard_iff pos l r : rule_or_none (s_rename_all (fst (parse_attrs pe pp pos l))) = r <-> rule_heard pe pp pos l r.
  Proof.
    assert (H1 : forall v, s_rename_all (fst (parse_attrs pe pp pos l)) = Some v <-> heard pos l (SRenameAll v)) by (intros v; apply (slot_heard s_rename_all sel_rule SRenameAll); slot).
    assert (H2 : s_rename_all (fst (parse_attrs pe pp pos l)) = None <-> forall v, ~ heard pos l (SRenameAll v)) by (apply (slot_unheard s_rename_all sel_rule SRenameAll); slot).
    unfold rule_heard. destruct (s_rename_all _) as [v|]; cbn.
    - split.
      + intros <-. left. now apply H1.
      + intros [H|[_ H]]; [apply H1 in H; congruence|]. destruct (H v). now apply H1.
    - split.
      + intros <-. right. split; [reflexivity|now apply H2].
      + intros [H|[H _]]; [apply H1 in H; discriminate|auto].
  Qed.

  (** ** Renaming fails *)
  Lemma field_None {A} r i (f : field_syn A) :
    rename_field r {| f_attrs := fst (field_from_ast pe pp (source_name i f) (fs_attrs f)); f_ty := fs_ty f |} = None <-> field_misnamed pe pp r i f.
  Proof.
    unfold rename_field, field_misnamed, field_from_ast. pose proof (rename_unheard PField (fs_attrs f)) as Hr.
    destruct (parse_attrs pe pp PField (fs_attrs f)) as [s es]. cbn [fst] in Hr. destruct (at_most_one (s_types s)) as [t dup]. cbn [f_attrs fst].
    unfold rename_as_field. cbn. destruct (s_rename s) as [x|]; cbn.
    - split; [discriminate|]. intros (_ & H & _). apply Hr in H. discriminate.
    - pose proof (field_panics r (source_name i f)) as Hp. destruct (apply_to_field r (source_name i f)).
      + split; [discriminate|]. intros (H1 & _ & H2). assert (Hx : Some s0 = None) by (apply Hp; now split). discriminate.
      + split; [|auto]. intros _. destruct (proj1 Hp eq_refl). split; [assumption|]. split; [now apply Hr|assumption].
  Qed.
  Lemma fields_None {A} r i (fs : list (field_syn A)) : try_map (rename_field r) (fst (fields_from_ast pe pp i fs)) = None <->
    exists k f, nth_error fs k = Some f /\ field_misnamed pe pp r (i + k) f.
  Proof.
    revert i. induction fs as [|f fs IH]; intros i; cbn [fields_from_ast].
    { split; [discriminate|]. intros (k & f & H & _). destruct k; discriminate. }
    fold (source_name i f). pose proof (field_None r i f) as Hf. destruct (field_from_ast pe pp (source_name i f) (fs_attrs f)) as [a es].
    specialize (IH (S i)). destruct (fields_from_ast pe pp (S i) fs) as [rest es']. cbn [fst] in *. cbn [try_map]. fold (try_map (rename_field (A := A) r)).
    destruct (rename_field r {| f_attrs := a; f_ty := fs_ty f |}) as [g|].
    - transitivity (try_map (rename_field r) rest = None); [destruct (try_map (rename_field r) rest); split; congruence|]. rewrite IH. split.
      + intros (k & f' & H1 & H2). exists (S k), f'. split; [exact H1|]. now rewrite Nat.add_succ_r.
      + intros ([|k] & f' & H1 & H2).
        * injection H1 as <-. rewrite Nat.add_0_r in H2. apply Hf in H2. discriminate.
        * exists k, f'. split; [exact H1|]. now rewrite Nat.add_succ_r in H2.
    - split; [|reflexivity]. intros _. exists 0, f. split; [reflexivity|]. rewrite Nat.add_0_r. now apply Hf.
  Qed.
  Lemma variants_None {A} r (vs : list (variant_syn A)) : try_map (rename_variant uni r) (fst (variants_from_ast pe pp vs)) = None <->
    exists v, In v vs /\ (variant_misnamed pe pp r v \/
      exists k f r', rule_heard pe pp PVariant (vs_attrs v) r' /\ nth_error (fields_list (vs_fields v)) k = Some f /\ field_misnamed pe pp r' k f).
  Proof.
    induction vs as [|v vs IH]; cbn [variants_from_ast].
    { split; [discriminate|]. intros (v & [] & _). }
    unfold variant_from_ast. pose proof (rename_unheard PVariant (vs_attrs v)) as Hr. pose proof (rule_heard_iff PVariant (vs_attrs v)) as Hru.
    destruct (parse_attrs pe pp PVariant (vs_attrs v)) as [s es]. cbn [fst] in *. destruct (at_most_one (s_types s)) as [t dup].
    rewrite struct_from_ast_eq. destruct (variants_from_ast pe pp vs) as [rest es']. cbn [fst] in *. cbn [try_map]. fold (try_map (rename_variant (A := A) uni r)).
    match goal with |- context [rename_variant uni r ?x] => assert (Hv : rename_variant uni r x = None <-> variant_misnamed pe pp r v \/
      exists k f r', rule_heard pe pp PVariant (vs_attrs v) r' /\ nth_error (fields_list (vs_fields v)) k = Some f /\ field_misnamed pe pp r' k f) end.
    { unfold rename_variant, rename_as_variant. cbn. pose proof (fields_None (rule_or_none (s_rename_all s)) 0 (fields_list (vs_fields v))) as Hf. cbn [Nat.add] in Hf.
      assert (Hx : try_map (rename_field (rule_or_none (s_rename_all s))) (fst (fields_from_ast pe pp 0 (fields_list (vs_fields v)))) = None <->
        exists k f r', rule_heard pe pp PVariant (vs_attrs v) r' /\ nth_error (fields_list (vs_fields v)) k = Some f /\ field_misnamed pe pp r' k f).
      { rewrite Hf. split.
        - intros (k & f & H1 & H2). exists k, f, (rule_or_none (s_rename_all s)). split; [now apply Hru|now split].
        - intros (k & f & r' & H0 & H1 & H2). apply Hru in H0. subst r'. now exists k, f. }
      unfold variant_misnamed. destruct (s_rename s) as [x|]; cbn.
      - destruct (try_map (rename_field _) _).
        + split; [discriminate|]. intros [(_ & H & _)|H]; [apply Hr in H; discriminate|]. apply Hx in H. discriminate.
        + split; [|reflexivity]. intros _. right. now apply Hx.
      - pose proof (variant_panics uni r (unraw (vs_ident v))) as Hp. destruct (apply_to_variant uni r (unraw (vs_ident v))) as [y|].
        + destruct (try_map (rename_field _) _).
          * split; [discriminate|]. intros [(H1 & _ & H2)|H]; [|apply Hx in H; discriminate]. assert (Hy : Some y = None) by (apply Hp; now split). discriminate.
          * split; [|reflexivity]. intros _. right. now apply Hx.
        + split; [|reflexivity]. intros _. left. destruct (proj1 Hp eq_refl). split; [assumption|]. split; [now apply Hr|assumption]. }
    match goal with |- context [rename_variant uni r ?x] => destruct (rename_variant uni r x) as [w|] end.
    - transitivity (try_map (rename_variant uni r) rest = None); [destruct (try_map (rename_variant uni r) rest); split; congruence|]. rewrite IH. split.
      + intros (v' & H1 & H2). exists v'. split; [now right|exact H2].
      + intros (v' & [->|H1] & H2); [apply Hv in H2; discriminate|now exists v'].
    - split; [|reflexivity]. intros _. exists v. split; [now left|now apply Hv].
  Qed.

  (** ** Outcomes *)
  Lemma from_ast_panics (i : derive_input ty) : fst (container_from_ast pe pp uni i) = FaPanic <-> misnamed pe pp i.
  Proof.
    unfold container_from_ast, container_attrs_from_ast. pose proof (rule_heard_iff (PContainer (kind_of_data (di_data i))) (di_attrs i)) as Hr.
    destruct (parse_attrs pe pp _ (di_attrs i)) as [s es]. cbn [fst] in Hr. destruct (at_most_one (s_types s)) as [t dup].
    destruct (decide_model_kind (di_data i) _) as [mk bad]. cbn [ca_rename_rule]. destruct (di_data i) as [vs|fs|] eqn:Ed.
    - pose proof (mixed_iff vs) as Hm. destruct (consistent_discriminants vs).
      2:{ cbn. split; [discriminate|]. intros H. destruct H as [vs' ? ? E Hn|vs' ? ? ? ? E Hn|? ? ? ? E]; rewrite Ed in E; try discriminate; injection E as <-; destruct Hn; now apply Hm. }
      pose proof (variants_None (rule_or_none (s_rename_all s)) vs) as Hv. destruct (variants_from_ast pe pp vs) as [l es']. cbn [fst rename_data] in *.
      assert (Hno : ~ mixed_discriminants vs) by (intros H; apply Hm in H; discriminate).
      transitivity (try_map (rename_variant uni (rule_or_none (s_rename_all s))) l = None); [destruct (try_map _ l); split; cbn; congruence|]. rewrite Hv. split.
      + intros (v & H1 & [H2|(k & f & r' & H2 & H3 & H4)]); [|eapply mis_variant_field; eauto].
        eapply mis_variant; eauto. now apply Hr.
      + intros H. destruct H as [vs' v r E Hn Hi Hru H|vs' v k f r E Hn Hi Hru Hk H|fs k f r E]; rewrite Ed in E; try discriminate; injection E as <-; exists v; (split; [exact Hi|]).
        * left. apply Hr in Hru. now subst r.
        * right. exists k, f, r. auto.
    - rewrite struct_from_ast_eq. cbn [rename_data].
      pose proof (fields_None (rule_or_none (s_rename_all s)) 0 (fields_list fs)) as Hf. cbn [Nat.add] in Hf.
      transitivity (try_map (rename_field (rule_or_none (s_rename_all s))) (fst (fields_from_ast pe pp 0 (fields_list fs))) = None); [destruct (try_map _ _); split; cbn; congruence|]. rewrite Hf. split.
      + intros (k & f & H1 & H2). eapply mis_field; eauto. rewrite Ed. now apply Hr.
      + intros H. destruct H as [vs' v r E Hn Hi Hru H|vs' v k f r E Hn Hi Hru Hk H|fs' k f r E Hru Hk H]; rewrite Ed in E; try discriminate. injection E as <-.
        rewrite Ed in Hru. apply Hr in Hru. subst r. now exists k, f.
    - cbn. split; [discriminate|]. intros H. destruct H as [? ? ? E|? ? ? ? ? E|? ? ? ? E]; rewrite Ed in E; discriminate.
  Qed.
  Theorem derive_panics_iff i : derive i = DPanic <->
    misnamed pe pp i \/ attributes_acceptable pe pp i /\ ~ unsupported pe pp i /\ undescribed pe pp i.
  Proof.
    pose proof (from_ast_panics i) as Hp. pose proof (from_ast_errors pe pp uni i) as He. pose proof (from_ast_None pe pp uni i) as Hnone.
    unfold Derive.derive. destruct (container_from_ast pe pp uni i) as [r es] eqn:Ec. cbn [fst snd] in *. destruct r as [|c|].
    - split.
      + destruct es; [|discriminate]. destruct (Hnone eq_refl). reflexivity.
      + intros [H|(H1 & H2 & _)]; [apply Hp in H; discriminate|]. destruct (Hnone eq_refl). apply He. now split.
    - destruct es as [|e es].
      + destruct (proj1 He eq_refl) as [H1 H2]. apply from_ast_parsed in Ec as [Hc _]. pose proof (body_None pe pp uni ev _ _ Hc) as Hb. destruct (serialize_body ev c).
        * split; [discriminate|]. intros [H|(_ & _ & H)]; [apply Hp in H; discriminate|]. apply Hb in H. discriminate.
        * split; [|reflexivity]. intros _. right. split; [exact H1|]. split; [exact H2|]. now apply Hb.
      + split; [discriminate|]. intros [H|(H1 & H2 & _)]; [apply Hp in H; discriminate|]. assert (Hx : e :: es = []) by (apply He; now split). discriminate.
    - split; [|reflexivity]. intros _. left. now apply Hp.
  Qed.
  Theorem derive_errors_iff i : (exists es, derive i = DErr es) <-> ~ misnamed pe pp i /\ (~ attributes_acceptable pe pp i \/ unsupported pe pp i).
  Proof.
    split.
    - intros [es H]. split; [|now apply (derive_DErr pe pp uni ev i es)]. intros Hm. assert (Hx : derive i = DPanic) by (apply derive_panics_iff; now left). congruence.
    - intros [Hn H]. destruct (derive i) as [td|es|] eqn:Ed; [|now exists es|].
      + assert (Hok : exists td, derive i = DOk td) by now exists td. apply derive_ok_iff in Hok as (H1 & H2 & _). tauto.
      + apply derive_panics_iff in Ed as [Ed|(H1 & H2 & _)]; tauto.
  Qed.
  Lemma unsupported_reported i : unsupported pe pp i -> ((exists es, derive i = DErr es /\ es <> []) <-> ~ misnamed pe pp i).
  Proof.
    intros Hu. split.
    - intros (es & H & _). now apply (proj1 (derive_errors_iff i) (ex_intro _ es H)).
    - intros Hn. destruct (proj2 (derive_errors_iff i) (conj Hn (or_intror Hu))) as [es H]. exists es. split; [exact H|]. now apply (derive_DErr pe pp uni ev i es).
  Qed.
End Facts.

(** #[serde(rename_all = "camelCase", rename_all = "snake_case")] #[opg] struct Gap { #[serde(skip)] __: i32 } *)
From Verif Require Import DeriveExamples.
Definition i_gap (first second : string) : derive_input ty :=
  item [serde_attr [str_value "rename_all" first; str_value "rename_all" second]; {| at_path := ident "opg"; at_meta := PmOther |}] "Gap"
    (DaStruct (FNamed [fld [serde_attr [word_item "skip"]] "__" i32])).
Lemma gap_outcomes pe pp uni ev :
  (~ attributes_acceptable pe pp (i_gap "camelCase" "snake_case") /\ misnamed pe pp (i_gap "camelCase" "snake_case") /\ derive pe pp uni ev (i_gap "camelCase" "snake_case") = DPanic) /\
  exists es, derive pe pp uni ev (i_gap "snake_case" "camelCase") = DErr es /\ length es = 2.
Proof.
  split; [|eexists; split; reflexivity].
  assert (Hp : derive pe pp uni ev (i_gap "camelCase" "snake_case") = DPanic) by reflexivity.
  split; [|split; [|exact Hp]].
  - intros H. pose proof (from_ast_errors pe pp uni (i_gap "camelCase" "snake_case")) as He.
    assert (Hs : ~ unsupported pe pp (i_gap "camelCase" "snake_case")) by (intros []; discriminate).
    assert (Hx : snd (container_from_ast pe pp uni (i_gap "camelCase" "snake_case")) = []) by (apply He; now split). discriminate.
  - apply from_ast_panics with (uni := uni). reflexivity.
Qed.
