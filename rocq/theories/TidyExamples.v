(** Concrete types and invocations for the theorems about OpenAPI conformance. *)
From Verif Require Import Attr AttrSpec AttrFacts Ast Derive DeriveSpec Schema SchemaSpec SchemaFacts Gen GenSpec GenFacts GenFacts3 GenFacts4 GenFacts5 DeriveFacts5 DeriveExamples.
From Verif Require Import Doc Ser SerSpec SerFacts SerFacts2 SerFacts3 SerFacts4 Api ApiSpec ApiFacts ApiFacts2 ApiFacts3 ApiFacts8 Conformance ApiExamples.
From Verif Require Import SoundSpec SoundFacts4 SoundFacts5 SoundCheck SoundExamples OpenApiFacts TidySpec TidyFacts TidyFacts2.
Local Open Scope string_scope. Local Open Scope list_scope.

(** ** Describable types *)
Lemma distinct_required pe pp (l : list (str * field_syn ty)) req : required_names pe pp l req -> NoDup (map fst l) -> NoDup req.
Proof.
  intros H Hn. assert (G : NoDup req /\ incl req (map fst l)); [|apply G].
  induction H as [|n f l req Ho H IH|n f l req Ho H IH]; [split; [constructor|intros x []]| |]; inversion Hn as [|? ? H1 H2]; subst.
  - destruct (IH H2) as [H3 H4]. split; [exact H3|]. intros x Hx. right. now apply H4.
  - destruct (IH H2) as [H3 H4]. split; [constructor; [intros Hx; apply H1, H4, Hx|exact H3]|]. intros x [<-|Hx]; [now left|right; now apply H4].
Qed.
Lemma members_once pe pp D tags pos attrs fs avoid : members_described pe pp D tags pos attrs fs avoid -> required_once pe pp pos attrs fs.
Proof. intros H rule l req Hr Hl Hq. destruct (H _ _ Hr Hl) as [Hn _]. eapply distinct_required; eauto. Qed.
Ltac name_ok := split; [discriminate|]; intros c Hc; cbn in Hc; cases Hc; subst; unfold name_char; cbn; lia.
Lemma test_describable_19 : input_describable yes yes t_simple_enum.
Proof.
  split; [|right; name_ok]. cbn. split.
  - exists (vrt [] "Test" FUnit). split; [now left|]. split; [unfold variant_skipped; decide_said|]. intros [H _]. revert H. decide_said.
  - intros rep Hrep. split.
    + intros v [<-|[<-|[<-|[]]]] _; exact I.
    + intros t c v _ [<-|[<-|[<-|[]]]] Hv; destruct Hv; reflexivity.
Qed.
Lemma test_struct_describable id fs : In id test_supported -> di_data (test_source id) = DaStruct (FNamed fs) -> component_name (di_ident (test_source id)) ->
  input_describable yes yes (test_source id).
Proof.
  intros Hi Hd Hn. split; [|now right]. unfold input_filled. rewrite Hd. destruct (test_supported_ok (tags := False) id Hi) as [Hs _].
  assert (Hx : input_supported yes yes test_source False (test_source id)) by (apply (Hs (TNamed id)); constructor).
  inversion Hx; rewrite Hd in *; try discriminate. injection H as <-. eapply members_once. eassumption.
Qed.
Lemma test_describable_20 : input_describable yes yes t_in_module.
Proof. apply (test_struct_describable 20 (match di_data t_in_module with DaStruct (FNamed l) => l | _ => [] end)); [cbn; tauto|reflexivity|name_ok]. Qed.
Lemma test_describable_21 : input_describable yes yes t_test.
Proof. apply (test_struct_describable 21 (match di_data t_test with DaStruct (FNamed l) => l | _ => [] end)); [cbn; tauto|reflexivity|name_ok]. Qed.
Lemma test_describable t : names_type test_seg test_api t -> describable yes yes noupper eval_text test_source test_env t.
Proof.
  intros Ht. apply types_written in Ht.
  assert (Hin : forall t', t' = t \/ contains test_env t t' -> In t' (map site_ty test_sites)).
  { intros t' [->|Hc].
    - apply (in_map site_ty _ (SMention t false)), test_visited. constructor. apply (in_map (fun t => SMention t false)), Ht.
    - apply contains_visited in Hc. destruct Hc as (s & Hs & <-).
      assert (Hm : visited test_env (map (fun t => SMention t false) test_types) (SMention t false)).
      { constructor. apply (in_map (fun t => SMention t false)), Ht. }
      destruct (visited_split test_env _ _ Hs) as (s0 & [<-|[]] & [->|Hv]).
      + apply (in_map site_ty _ (SMention t false)), test_visited, Hm.
      + apply in_map, test_visited. eapply visited_incl; [|exact Hv]. intros s1 H1. eapply vis_step; [exact Hm|exact H1]. }
  split.
  - intros id Hid. assert (Hi : In (TNamed id) (map site_ty test_sites)) by (apply Hin; destruct Hid as [->|]; auto). clear -Hi.
    cbn in Hi. cases Hi; try discriminate Hi; injection Hi as <-; (split; [apply test_derived; reflexivity|]); cbn;
      first [exact test_describable_19|exact test_describable_20|exact test_describable_21].
  - intros Hid. assert (Hi : In (TTuple []) (map site_ty test_sites)) by (apply Hin; destruct Hid as [->|]; auto). clear -Hi.
    cbn in Hi. cases Hi; discriminate Hi.
Qed.
(** the history of mentions of test_api *)
Definition test_calls : list mention_call := map default_call test_types.
Definition test_cx : components := Eval vm_compute in match mention_all test_env 20 test_calls cx_new with Ok cx => cx | Fuel => cx_new end.
Lemma test_apart id : In id [19; 20; 21] -> fields_apart yes yes (test_source id).
Proof.
  intros [<-|Hi]; [intros v fs [<-|[<-|[<-|[]]]] _ Hf; discriminate Hf|].
  assert (Hs : In id test_supported) by (cbn in *; tauto). destruct (test_supported_ok (tags := False) id Hs) as [Hx _].
  assert (Hy : input_supported yes yes test_source False (test_source id)) by (apply (Hx (TNamed id)); constructor).
  assert (Hd : exists fs, di_data (test_source id) = DaStruct (FNamed fs)) by (destruct Hi as [<-|[<-|[]]]; eexists; reflexivity).
  destruct Hd as [fs Hd]. unfold fields_apart. rewrite Hd. inversion Hy; rewrite Hd in *; try discriminate. injection H as <-.
  intros rule l Hr Hl. match goal with H : members_described _ _ _ _ _ _ _ _ |- _ => now destruct (H _ _ Hr Hl) as [Hn _] end.
Qed.
Lemma test_history : mentions_return test_env test_calls cx_new test_cx /\ (forall c, In c test_calls -> p_variants (mc_params c) = None) /\
  names_unambiguous test_env (call_sites test_calls) /\
  (forall s id, visited test_env (call_sites test_calls) s -> site_ty s = TNamed id ->
     derive yes yes noupper eval_text (test_source id) = DOk (test_env id) /\ fields_apart yes yes (test_source id)) /\
  (exists s, visited test_env (call_sites test_calls) s /\ site_ty s = TNamed 20) /\ cx_schemas test_cx <> [].
Proof.
  assert (Hc : call_sites test_calls = map (fun t => SMention t false) test_types) by reflexivity. rewrite Hc.
  split; [exists 20; vm_compute; reflexivity|]. split; [intros c Hi; apply in_map_iff in Hi as (t & <- & _); reflexivity|].
  split; [exact test_unambiguous|]. split; [|split; [|discriminate]].
  - intros s id Hs Es. apply test_visited in Hs. assert (Hi : In (TNamed id) (map site_ty test_sites)) by (rewrite <- Es; now apply in_map).
    cbn in Hi. cases Hi; try discriminate Hi; injection Hi as <-; (split; [apply test_derived; reflexivity|apply test_apart; cbn; tauto]).
  - exists (SMention (TNamed 20) false). split; [constructor; cbn; tauto|reflexivity].
Qed.
Lemma test_presentable : presentable test_api.
Proof.
  split; [discriminate|split; [|split]].
  - intros l (pd & m & Hp & Hm). apply test_declares in Hp. destruct Hp as [->|[->| ->]]; inside Hm;
      (split; [eexists _, _, _; cbn; intuition reflexivity|]); intros c de s Hr; inside Hr; lia.
  - intros n s [(ds & x & Hds & Hx & Hs)|(l & reqs & req & roles & (pd & m & Hp & Hm) & Hr & Hi & Hq)].
    + inside Hds. cbn in Hx. cases Hx; subst x; cbn in Hs; injection Hs as <- <-; (split; [name_ok|]); intros k [= <-]; discriminate.
    + apply test_declares in Hp. destruct Hp as [->|[->| ->]]; inside Hm; inside Hr. cbn in Hi. cases Hi; subst req. inside Hq. split; [name_ok|].
      intros k [= <-]; discriminate.
  - intros r Hr. destruct (test_no_raw r Hr).
Qed.
Lemma once_nodup {X K} (key : X -> K) l : NoDup (map key l) -> alike key l.
Proof.
  induction l as [|z l IH]; intros H x y Hx Hy Hk; [destruct Hx|]. inversion H as [|? ? H1 H2]; subst.
  destruct Hx as [<-|Hx], Hy as [<-|Hy]; [reflexivity| | |now apply IH]; destruct H1; [rewrite Hk|rewrite <- Hk]; now apply in_map.
Qed.
Definition test_schemes : list scheme_decl := match nth 3 test_api (ScInfo []) with ScSecurity l => l | _ => [] end.
Lemma test_said_once : said_once test_seg test_api.
Proof.
  assert (Ht1 : forall n t, template_parameter test_seg test_path_1 n t -> t = TPrim PUuid).
  { intros n t (g & Hg & [H|(text & H & _)]); cbn in Hg; cases Hg; subst g; vm_compute in H; try discriminate H; injection H; intros; subst; reflexivity. }
  assert (Ht2 : forall n t, template_parameter test_seg test_path_2 n t -> n = u "paramTest" /\ t = TPrim PString).
  { intros n t (g & Hg & [H|(text & H & _)]); cbn in Hg; cases Hg; subst g; vm_compute in H; try discriminate H; injection H; intros; subst; now split. }
  assert (Ht3 : forall n t, ~ template_parameter test_seg test_callback_path n t).
  { intros n t (g & Hg & [H|(text & H & _)]); cbn in Hg; cases Hg; subst g; vm_compute in H; discriminate H. }
  assert (Hn : forall X K (key : X -> K) l, NoDup (map key l) -> alike key l) by (intros; now apply once_nodup). split; [|split].
  - intros pd Hp. apply test_declares in Hp. destruct Hp as [->|[->| ->]]; (split; [apply Hn; cbn; repeat constructor; cbn; intuition discriminate|]);
      (split; [split; [apply Hn; cbn; repeat constructor; cbn; intuition discriminate|intros q Hq; cbn in Hq; cases Hq; subst q; cbn; intuition discriminate]|]).
    + intros n t H. split; [intros q []|]. intros t' H'. rewrite (Ht1 _ _ H). symmetry. exact (Ht1 _ _ H').
    + intros n t H. destruct (Ht2 _ _ H) as [-> ->]. split; [|intros t' H'; symmetry; apply (Ht2 _ _ H')]. intros q Hq. cbn in Hq. cases Hq; subst q; discriminate.
    + intros n t H. destruct (Ht3 _ _ H).
  - intros l (pd & m & Hp & Hm). apply test_declares in Hp. destruct Hp as [->|[->| ->]]; inside Hm;
      (split; [apply Hn; cbn; repeat constructor; cbn; intuition discriminate|]);
      (split; [split; [apply Hn; cbn; repeat constructor; cbn; intuition discriminate|intros q Hq; cbn in Hq; cases Hq; subst q; cbn; intuition discriminate]|]);
      (split; [apply Hn; cbn; repeat constructor; cbn; intuition discriminate|]);
      (split; [intros b b' Hb Hb'; inside Hb; inside Hb'; reflexivity|]); intros ps t t' Hb Ht Ht'; inside Hb; inside Ht; inside Ht'; reflexivity.
  - assert (Hs : forall n s, declares_scheme test_api n s \/ uses_scheme test_api n s ->
      In (n, s) ((u "test_auth", test_auth) :: flat_map (fun x => match scheme_declared x with Some e => [e] | None => [] end) test_schemes)).
    { intros n s [(ds & x & Hds & Hx & Hs)|(l & reqs & req & roles & (pd & m & Hp & Hm) & Hr & Hi & Hq)].
      - inside Hds. right. apply in_flat_map. exists x. split; [exact Hx|]. rewrite Hs. now left.
      - apply test_declares in Hp. destruct Hp as [->|[->| ->]]; inside Hm; inside Hr. cbn in Hi. cases Hi; subst req. inside Hq. now left. }
    intros n s s' H H'. apply Hs in H, H'. cbn in H, H'. cases H; cases H'; congruence.
Qed.
Lemma test_distinct : distinct_paths (og_paths test_doc).
Proof.
  apply (proj1 (keys_distinct_iff test_doc (described_wf _ _ _ _ _ test_describes (fun r Hr => match test_no_raw r Hr with end)))).
  exact test_keys_distinct.
Qed.

(** ** Documents and schemas that do not conform *)
Definition nothing : api := [ScInfo [IpTitle (u "Title"); IpVersion (u "1")]].
Definition silent : api := small [PvMethod GET [OpSummary (u "Summary")]].
Definition coded : api := small [PvMethod GET [OpResponse 42 (Some (u "Fine")) RsNone]].
Definition keyed : api := [ScSecurity [SdApiKey (u "key") [KpIn InPath; KpName (u "id")]]; ScPaths [small_path [PvSummary (u "Summary")]]].
Definition bad_doc (a : api) : opg := doc_of a.
Lemma small_wf a d : describes test_env test_reason small_seg a d -> (forall r, ~ raw_response a r) -> wf_opg d.
Proof. intros Hd Hr. eapply described_wf; [exact Hd|]. intros r H. destruct (Hr _ H). Qed.
Lemma small_operation l0 l : declares_operation (small l0) l -> (forall m ops, In (PvMethod m ops) l0 -> forall cs t, ~ In (OpCallbacks cs t) ops) ->
  exists m, In (PvMethod m l) l0.
Proof.
  intros (pd & m & (ds & Hw & Hi) & Hm) Hc. assert (Hds : ds = [small_path l0]).
  { clear -Hw Hc. change (api_paths (small l0)) with [small_path l0] in Hw. induction Hw as [|ds pd m l cs t n ds' Hw IH H1 H2 H3 H4]; [reflexivity|]. subst ds.
    destruct H1 as [<-|[]]. destruct (Hc _ _ H2 _ _ H3). }
  subst ds. destruct Hi as [<-|[]]. now exists m.
Qed.
Lemma nothing_refused : describes test_env test_reason small_seg nothing (bad_doc nothing) /\ ~ conforms (ser_opg (bad_doc nothing)).
Proof.
  assert (Hd : describes test_env test_reason small_seg nothing (bad_doc nothing)) by (apply run_describes; vm_compute; reflexivity).
  split; [exact Hd|]. intros H. apply (proj1 (conforms_iff _ (small_wf _ _ Hd ltac:(intros r (l & c & d & (pd & m & (ds & Hw & Hi) & _) & _);
    assert (ds = []) by (clear -Hw; change (api_paths nothing) with (@nil path_decl) in Hw; induction Hw as [|ds pd m l cs t n ds' Hw IH H1 H2 H3 H4]; [reflexivity|subst ds; destruct H1]);
    subst ds; destruct Hi)))) in H.
  apply (proj1 H). vm_compute. reflexivity.
Qed.
Lemma silent_refused : describes test_env test_reason small_seg silent (bad_doc silent) /\ ~ conforms (ser_opg (bad_doc silent)).
Proof.
  assert (Hd : describes test_env test_reason small_seg silent (bad_doc silent)) by (apply run_describes; vm_compute; reflexivity).
  split; [exact Hd|]. assert (Hr : forall r, ~ raw_response silent r).
  { intros r (l & c & d & Ho & Hi). apply small_operation in Ho as [m Hm]; [inside Hm; inside Hi|]. intros m ops Hm cs t Hc. inside Hm; inside Hc. }
  intros H. apply (proj1 (conforms_iff _ (small_wf _ _ Hd Hr))) in H. destruct H as (_ & _ & (_ & _ & Ho) & _).
  destruct (Ho (match map snd (pv_operations (snd (nth 0 (og_paths (bad_doc silent)) ([], path_value_default)))) with o :: _ => o | [] => operation_default end)) as (_ & _ & Hn & _).
  - eexists _, _, GET. split; [exists (og_paths (bad_doc silent)); split; [constructor|vm_compute; left; reflexivity]|vm_compute; left; reflexivity].
  - apply Hn. vm_compute. reflexivity.
Qed.
Lemma coded_refused : describes test_env test_reason small_seg coded (bad_doc coded) /\ ~ conforms (ser_opg (bad_doc coded)).
Proof.
  assert (Hd : describes test_env test_reason small_seg coded (bad_doc coded)) by (apply run_describes; vm_compute; reflexivity).
  split; [exact Hd|]. assert (Hr : forall r, ~ raw_response coded r).
  { intros r (l & c & d & Ho & Hi). apply small_operation in Ho as [m Hm]; [inside Hm; inside Hi|]. intros m ops Hm cs t Hc. inside Hm; inside Hc. }
  intros H. apply (proj1 (conforms_iff _ (small_wf _ _ Hd Hr))) in H. destruct H as (_ & _ & (_ & _ & Ho) & _).
  destruct (Ho (match map snd (pv_operations (snd (nth 0 (og_paths (bad_doc coded)) ([], path_value_default)))) with o :: _ => o | [] => operation_default end)) as (_ & _ & _ & Hc).
  - eexists _, _, GET. split; [exists (og_paths (bad_doc coded)); split; [constructor|vm_compute; left; reflexivity]|vm_compute; left; reflexivity].
  - edestruct (Hc 42%N) as [[Hx _] _]; [vm_compute; left; reflexivity|]. now apply Hx.
Qed.
Lemma keyed_refused : describes test_env test_reason small_seg keyed (bad_doc keyed) /\ ~ conforms (ser_opg (bad_doc keyed)).
Proof.
  assert (Hd : describes test_env test_reason small_seg keyed (bad_doc keyed)) by (apply run_describes; vm_compute; reflexivity).
  split; [exact Hd|]. assert (Hr : forall r, ~ raw_response keyed r).
  { intros r (l & c & d & Ho & Hi). change (declares_operation (small [PvSummary (u "Summary")]) l) in Ho.
    apply small_operation in Ho as [m Hm]; [inside Hm; inside Hi|]. intros m ops Hm cs t Hc. inside Hm; inside Hc. }
  intros H. apply (proj1 (conforms_iff _ (small_wf _ _ Hd Hr))) in H. destruct H as (_ & _ & _ & _ & Hs).
  destruct (Hs (u "key") (ApiKey {| ak_in := InPath; ak_name := u "id"; ak_description := None |})) as [_ Hk]; [vm_compute; left; reflexivity|].
  now apply (Hk _ eq_refl).
Qed.

(** #[serde(skip)] on the only variant; no field; two fields of one name *)
Definition skipped_enum : derive_input ty := item [] "Empty" (DaEnum [vrt [serde_attr [word_item "skip"]] "Only" FUnit]).
Definition skipped_payload : derive_input ty := item [] "Hollow" (DaEnum [vrt [serde_attr [word_item "skip"]] "Only" (FUnnamed [pos_fld [] i32])]).
Definition no_fields : derive_input ty := item [] "Nothing" (DaStruct (FUnnamed [])).
Definition bad_env (i : derive_input ty) : env := fun _ => derived i.
Definition bad_schema (i : derive_input ty) : model := DeriveExamples.first_of (get_schema (bad_env i) 10 (TNamed 0) cx_new).
Notation misformed := (TidySpec.misformed yes yes noupper DeriveExamples.same).
Lemma misform i : ex_derive i = DOk (derived i) -> (exists cx, get_schema (bad_env i) 10 (TNamed 0) cx_new = Ok (bad_schema i, cx)) ->
  ~ tidy (bad_schema i) -> misformed i.
Proof.
  intros H1 [cx H2] H3. exists (derived i), (bad_schema i), cx. split; [exact H1|]. assert (Hr : schema_returns (bad_env i) (TNamed 0) cx_new (bad_schema i) cx) by now exists 10.
  split; [exact Hr|]. intros H. apply H3. apply (proj1 (is_schema_iff _ (get_schema_wf_model _ _ _ _ _ _ H2))) in H. exact H.
Qed.
Lemma skipped_enum_misformed : misformed skipped_enum.
Proof. apply misform; [vm_compute; reflexivity|eexists; vm_compute; reflexivity|]. intros [H _]. vm_compute in H. congruence. Qed.
Lemma skipped_payload_misformed : misformed skipped_payload.
Proof.
  apply misform; [vm_compute; reflexivity|eexists; vm_compute; reflexivity|]. intros [_ H].
  destruct (H (Model None (OneOf []))) as [Hx _]; [vm_compute; constructor|now apply Hx].
Qed.
Lemma twins_misformed : misformed twins.
Proof. apply misform; [vm_compute; reflexivity|eexists; vm_compute; reflexivity|]. intros [H _]. vm_compute in H. inversion H as [|? ? H1 _]. apply H1. now left. Qed.
Lemma no_fields_misformed : misformed no_fields.
Proof.
  apply misform; [vm_compute; reflexivity|eexists; vm_compute; reflexivity|]. intros [_ H].
  destruct (H (Model None (OneOf []))) as [Hx _]; [vm_compute; constructor|now apply Hx].
Qed.

(** ** Cases *)
Lemma test_wf : wf_opg test_doc.
Proof. eapply described_wf; [exact test_describes|]. intros r Hr. destruct (test_no_raw r Hr). Qed.
Lemma nothing_case : describes test_env test_reason small_seg nothing (bad_doc nothing) /\ api_paths nothing = [] /\ ~ conforms (ser_opg (bad_doc nothing)).
Proof. destruct nothing_refused. auto. Qed.
Lemma silent_case : describes test_env test_reason small_seg silent (bad_doc silent) /\
  silent = small [PvMethod GET [OpSummary (u "Summary")]] /\ ~ conforms (ser_opg (bad_doc silent)).
Proof. destruct silent_refused. auto. Qed.
Lemma coded_case : describes test_env test_reason small_seg coded (bad_doc coded) /\
  coded = small [PvMethod GET [OpResponse 42 (Some (u "Fine")) RsNone]] /\ ~ conforms (ser_opg (bad_doc coded)).
Proof. destruct coded_refused. auto. Qed.
Lemma keyed_case : exists E reason seg a d k,
  describes E reason seg a d /\ declares_scheme a (u "key") (ApiKey k) /\ ak_in k = InPath /\ ~ conforms (ser_opg d).
Proof.
  destruct keyed_refused as [H1 H2]. exists test_env, test_reason, small_seg, keyed, (bad_doc keyed), {| ak_in := InPath; ak_name := u "id"; ak_description := None |}.
  split; [exact H1|]. split; [|split; [reflexivity|exact H2]]. eexists _, _. split; [left; reflexivity|]. split; [left; reflexivity|]. reflexivity.
Qed.
Lemma skipped_case : exists i vs, di_data i = DaEnum vs /\ vs <> [] /\ (forall v, In v vs -> variant_skipped yes yes v) /\ misformed i.
Proof.
  exists skipped_enum, [vrt [serde_attr [word_item "skip"]] "Only" FUnit]. split; [reflexivity|]. split; [discriminate|]. split; [|exact skipped_enum_misformed].
  intros v [<-|[]]. unfold variant_skipped. decide_said.
Qed.
Lemma twins_case : exists i f g, di_data i = DaStruct (FNamed [f; g]) /\ fs_ident f <> fs_ident g /\ misformed i.
Proof. exists twins. eexists _, _. split; [reflexivity|]. split; [discriminate|exact twins_misformed]. Qed.
