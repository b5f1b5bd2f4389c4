(** Concrete changes of types for the theorems of PropAdd.v. *)
From Verif Require Import Attr AttrSpec AttrFacts Ast AstFacts Derive DeriveSpec DeriveFacts3 Schema SchemaSpec Gen GenSpec GenFacts GenFacts4 DeriveFacts DeriveFacts2 DeriveFacts5 DeriveExamples.
From Verif Require Import Doc Ser Api ApiSpec ApiFacts ApiFacts2 ApiFacts8 Conformance ApiExamples.
From Verif Require Import SoundSpec SoundFacts2 SoundFacts4 SoundFacts5 SoundCheck SoundExamples AddSpec GrowSpec GrowFacts GrowExamples.
From Coq Require Import Arith Lia ZArith.
Local Open Scope string_scope. Local Open Scope list_scope.

(** before: the types [order1], [state1], [event1] of GrowExamples.v.
    after:
    #[serde(rename_all = "camelCase")] struct Order { order_id: u32, placed_at: u64, note: String, state: State, events: [Event; 2], parent: Box<Order> }
    enum State { Open, Closed }
    #[serde(tag = "kind")] enum Event { Opened, Moved { by: Vec<String>, place: String } } *)
Definition order3 : derive_input ty := item [camel] "Order" (DaStruct (FNamed [
  fld [] "order_id" (TPrim PU32); fld [] "placed_at" (TPrim PU64); fld [] "note" string; fld [] "state" (TNamed 1);
  fld [] "events" (TSeq (KArray 2) (TNamed 2)); fld [] "parent" (TOption (TWrap WBox (TNamed 0)))])).
Definition event3 : derive_input ty := item [kind_tag] "Event" (DaEnum [vrt [] "Opened" FUnit;
  vrt [] "Moved" (FNamed [fld [] "by" (TSeq KVec string); fld [] "place" string])]).
Definition shop3 := sources [order3; state1; event3].
(** and with a smaller number, a documented field and fewer states:
    struct Order { order_id: u16, placed_at: u64, #[opg("Remarks")] note: String, .. }
    enum State { Open } *)
Definition order4 : derive_input ty := item [camel] "Order" (DaStruct (FNamed [
  fld [] "order_id" (TPrim PU16); fld [] "placed_at" (TPrim PU64); fld [opg_attr [NLit (LStr (u "Remarks"))]] "note" string; fld [] "state" (TNamed 1);
  fld [] "events" (TSeq (KArray 2) (TNamed 2)); fld [] "parent" (TOption (TWrap WBox (TNamed 0)))])).
Definition state4 : derive_input ty := item [] "State" (DaEnum [vrt [] "Open" FUnit]).
Definition shop4 := sources [order4; state4; event3].
Definition old_env : env := sources_env [order1; state1; event1].

Lemma old_derived id : derive yes yes noupper DeriveExamples.same (shop1 id) = DOk (old_env id).
Proof. unfold shop1, old_env, sources, sources_env. rewrite map_nth. do 3 (destruct id as [|id]; [vm_compute; reflexivity|]). destruct id; vm_compute; reflexivity. Qed.
Lemma new_derived id : exists td, derive yes yes noupper DeriveExamples.same (shop3 id) = DOk td.
Proof. unfold shop3, sources. do 3 (destruct id as [|id]; [eexists; vm_compute; reflexivity|]). destruct id; eexists; vm_compute; reflexivity. Qed.
Lemma members_same D pos attrs fs : members_added yes yes D pos attrs fs fs.
Proof. intros rule l' _ Hl. exists l'. split; [exact Hl|]. split; [intros x Hx; exact Hx|auto]. Qed.
Lemma data_same D i : data_added yes yes D i i.
Proof.
  do 2 (split; [reflexivity|]). destruct (di_data i) as [vs|[fs|fs|]|]; try reflexivity; [|apply members_same].
  induction vs as [|v vs IH]; constructor; [|exact IH]. do 3 (split; [reflexivity|]). destruct (vs_fields v); try reflexivity. apply members_same.
Qed.
(** the names of fields without attributes *)
Lemma plain_members r (fs : list (field_syn ty)) l : (forall f, In f fs -> fs_attrs f = []) -> serialised_fields yes yes r 0 fs l ->
  forall l', serialised_fields yes yes r 0 fs l' -> l = l'.
Proof.
  intros Ha Hl l' Hl'. eapply serialised_fields_unique; [|exact Hl|exact Hl']. intros f Hf. rewrite (Ha f Hf). apply parse_accept. split; [reflexivity|cbn; lia].
Qed.
Ltac accepted := apply parse_accept; split; [vm_compute; reflexivity|vm_compute; lia].
Lemma order_added : data_added yes yes shop3 order1 order3.
Proof.
  do 2 (split; [reflexivity|]). intros rule l' Hr Hl. cbn [order1 order3 item di_data] in *.
  assert (rule = RCamelCase) as -> by (eapply has_rule_unique; [|exact Hr|rule]; accepted).
  eapply plain_members in Hl; [|intros f Hf; cbn in Hf; repeat destruct Hf as [<-|Hf]; try reflexivity; destruct Hf|members]. subst l'.
  eexists. split; [cbn; members|]. split.
  - intros x Hx. cbn in Hx |- *. tauto.
  - intros n f Hf. cbn in Hf |- *. repeat destruct Hf as [[= <- <-]|Hf]; try tauto; right; (split; [|intros Hx; exfalso; revert Hx; decide_said]); intros Hx; repeat destruct Hx as [Hx|Hx]; try discriminate Hx; destruct Hx.
Qed.
Lemma event_added : data_added yes yes shop3 event1 event3.
Proof.
  do 2 (split; [reflexivity|]). cbn [event1 event3 item di_data]. constructor; [do 3 (split; [reflexivity|]); reflexivity|].
  constructor; [|constructor]. do 3 (split; [reflexivity|]). intros rule l' Hr Hl. cbn [vrt vs_fields] in *.
  assert (rule = RNone) as -> by (eapply has_rule_unique; [|exact Hr|rule]; accepted).
  eapply plain_members in Hl; [|intros f Hf; cbn in Hf; repeat destruct Hf as [<-|Hf]; try reflexivity; destruct Hf|members]. subst l'.
  eexists. split; [cbn; members|]. split.
  - intros x Hx. cbn in Hx |- *. tauto.
  - intros n f Hf. cbn in Hf |- *. repeat destruct Hf as [[= <- <-]|Hf]; try tauto; right; (split; [|intros Hx; exfalso; revert Hx; decide_said]); intros Hx; repeat destruct Hx as [Hx|Hx]; try discriminate Hx; destruct Hx.
Qed.
(** nothing is flattened *)
Lemma nothing_flattened D D' :
  (forall id, match di_data (D id) with
              | DaStruct (FNamed fs) => forall f, In f fs -> ~ AttrSpec.said yes yes PField (fs_attrs f) SFlatten
              | DaEnum vs => forall v f, In v vs -> In f (fields_list (vs_fields v)) -> ~ AttrSpec.said yes yes PField (fs_attrs f) SFlatten
              | _ => True end) -> flattened_kept yes yes D D'.
Proof.
  intros H id. specialize (H id). destruct (di_data (D id)) as [vs|[fs|fs|]|]; try exact I.
  - intros v fs Hv Hf rule l n f _ Hl Hin Hfl _. exfalso. destruct (serialised_fields_In _ _ _ _ _ _ _ _ Hl Hin) as [Hin' _].
    specialize (H v f Hv). rewrite Hf in H. now apply H.
  - intros rule l n f _ Hl Hin Hfl _. exfalso. destruct (serialised_fields_In _ _ _ _ _ _ _ _ Hl Hin) as [Hin' _]. now apply (H f).
Qed.
Lemma shop_flattens_nothing : flattened_kept yes yes shop1 shop3.
Proof.
  apply nothing_flattened. intros [|[|[|[|id] ] ] ]; cbn; [|intros v f Hv Hf|intros v f Hv Hf| |].
  2,3: repeat destruct Hv as [<-|Hv]; try (now destruct Hv); cbn in Hf; repeat destruct Hf as [<-|Hf]; try (now destruct Hf); decide_said.
  all: intros f Hf; repeat destruct Hf as [<-|Hf]; try (now destruct Hf); decide_said.
Qed.
Lemma shop_adds : adds_fields yes yes shop1 shop3.
Proof.
  split; [|exact shop_flattens_nothing]. intros [|[|[|id] ] ]; [exact order_added|apply data_same|exact event_added|].
  replace (shop3 (S (S (S id)))) with (shop1 (S (S (S id)))) by (destruct id; reflexivity). apply data_same.
Qed.
Lemma shop_reduced : grows yes yes shop4 shop3.
Proof.
  intros id. split; [|split].
  - do 3 (destruct id as [|id]; [reflexivity|]). destruct id; reflexivity.
  - destruct id as [|[|[|id] ] ].
    + eapply dg_named; [reflexivity|reflexivity|decide_said|apply agree_same|].
      apply fg_keep; [|discriminate|].
      { split; [apply agree_same|]. split; [auto|]. split; [reflexivity|]. eapply wd_int; [reflexivity|reflexivity|]. left. split; [reflexivity|lia]. }
      apply fg_keep; [apply kept_same|discriminate|]. apply fg_keep; [|discriminate|].
      { split; [eapply agree_documented; [vm_compute; reflexivity|vm_compute; reflexivity|]|].
        - intros x Hx. vm_compute. split; [intros [<-|[] ]; destruct Hx|intros []].
        - split; [intros H; exfalso; revert H; decide_said|]. split; [reflexivity|]. apply wd_same. }
      apply grow_same. intros f Hf. cbn in Hf. repeat destruct Hf as [<-|Hf]; try discriminate; destruct Hf.
    + eapply dg_enum; [reflexivity|reflexivity|apply agree_same| |].
      * apply vg_keep; [now apply vkept_unit|]. apply vg_new, vg_nil.
      * intros [H _]. exfalso. revert H. decide_said.
    + eapply dg_enum; [reflexivity|reflexivity|apply agree_same| |].
      * apply vg_keep; [now apply vkept_unit|]. apply vg_keep; [|apply vg_nil].
        split; [apply agree_same|]. split; [reflexivity|]. split; [reflexivity|]. cbn. apply grow_same.
        intros f Hf. cbn in Hf. repeat destruct Hf as [<-|Hf]; try discriminate; destruct Hf.
      * intros [H _]. exfalso. revert H. decide_said.
    + replace (shop4 (S (S (S id)))) with i_secret by (destruct id; reflexivity). replace (shop3 (S (S (S id)))) with i_secret by (destruct id; reflexivity).
      eapply dg_named; [reflexivity|reflexivity|decide_said|apply agree_same|]. apply grow_same. intros f [<-|[] ]. discriminate.
  - exact (proj1 (proj2 (proj2 (proj1 (derive_ok_iff _ _ _ _ _) (new_derived id))))).
Qed.

Definition placed_json : json := JObj [(u "orderId", JInt 7); (u "placedAt", JInt 12345); (u "note", JStr (u "x")); (u "state", JStr (u "Open"));
  (u "events", JArr [JObj [(u "kind", JStr (u "Opened"))]; JObj [(u "kind", JStr (u "Moved")); (u "by", JArr []); (u "place", JStr (u "y"))] ]); (u "parent", JNull)].
Lemma placed_written D : D = shop3 \/ D = shop4 -> emits yes yes noupper zero D (TNamed 0) placed_json.
Proof.
  assert (Hs : forall s D, emits yes yes noupper zero D string (JStr s)) by (intros s D0; apply em_prim, pm_text; cbn; tauto).
  intros [->| ->].
  - plain_struct RCamelCase; [rule|members|]. emit; [apply em_prim, (pm_int _ false 32%Z); [reflexivity|cbn; lia]|].
    emit; [apply em_prim, (pm_int _ false 64%Z); [reflexivity|cbn; lia]|]. emit; [apply Hs|].
    emit; [eapply em_external_unit; [a_variant|reflexivity]|]. emit.
    + apply em_seq; [|intros n [= <-]; reflexivity]. apply el_cons; [eapply em_internal_unit; [a_variant|reflexivity]|].
      apply el_cons; [|apply el_nil].
      eapply em_internal; [a_variant| |cbn; intros [H|[H|[] ] ]; discriminate H].
      eapply ep_struct with (rule := RNone); [reflexivity|rule|cbn; members|]. emit; [apply em_seq; [apply el_nil|intros n Hn; discriminate Hn]|].
      emit; [apply Hs|apply ef_nil].
    + emit; [apply em_none|apply ef_nil].
  - plain_struct RCamelCase; [rule|members|]. emit; [apply em_prim, (pm_int _ false 16%Z); [reflexivity|cbn; lia]|].
    emit; [apply em_prim, (pm_int _ false 64%Z); [reflexivity|cbn; lia]|]. emit; [apply Hs|].
    emit; [eapply em_external_unit; [a_variant|reflexivity]|]. emit.
    + apply em_seq; [|intros n [= <-]; reflexivity]. apply el_cons; [eapply em_internal_unit; [a_variant|reflexivity]|].
      apply el_cons; [|apply el_nil].
      eapply em_internal; [a_variant| |cbn; intros [H|[H|[] ] ]; discriminate H].
      eapply ep_struct with (rule := RNone); [reflexivity|rule|cbn; members|]. emit; [apply em_seq; [apply el_nil|intros n Hn; discriminate Hn]|].
      emit; [apply Hs|apply ef_nil].
    + emit; [apply em_none|apply ef_nil].
Qed.
Lemma old_supported : supported_inside yes yes shop1 True (TNamed 0) /\ derived_inside yes yes noupper shop1 DeriveExamples.same old_env (TNamed 0).
Proof.
  apply (deepb_ok yes yes noupper DeriveExamples.same shop1 old_env (fun _ => true) (fun id _ => old_derived id) 20). vm_compute. reflexivity.
Qed.
Definition old_cx : components := Eval vm_compute in match mention_all old_env 20 shop_calls cx_new with Ok cx => cx | Fuel => cx_new end.
Lemma old_return : mentions_return old_env shop_calls cx_new old_cx.
Proof. exists 20. vm_compute. reflexivity. Qed.
Definition old_sites : list site := Eval vm_compute in
  (call_sites shop_calls ++ flat_map (fun id => sites_of old_env (TNamed id)) [0; 1; 2] ++
   flat_map (fun t => sites_of old_env t) [TSeq (KArray 2) (TNamed 2)]).
Lemma old_unambiguous : names_unambiguous old_env (call_sites shop_calls).
Proof.
  assert (Hv : forall s, visited old_env (call_sites shop_calls) s -> In s old_sites) by (apply visited_in_list; vm_compute; reflexivity).
  apply (names_checked _ _ old_sites Hv). vm_compute. reflexivity.
Qed.
Lemma old_mention : mention_returns old_env (TNamed 0) false params_default cx_new (Link (u "Order")) old_cx.
Proof. exists 20. vm_compute. reflexivity. Qed.

(** ** A flattened field that is new *)
(** struct Query { text: String } becomes [side_query] *)
Definition bare_query : derive_input ty := item [] "Query" (DaStruct (FNamed [fld [] "text" text])).
Definition bare_sources : tid -> derive_input ty := sources [bare_query; flat_paging].
Lemma flat_adds : adds_fields yes yes bare_sources side_sources.
Proof.
  split.
  - intros [|id]; [|replace (side_sources (S id)) with (bare_sources (S id)) by reflexivity; apply data_same].
    do 2 (split; [reflexivity|]). intros rule l' Hr Hl. cbn [bare_sources side_sources sources nth bare_query side_query item di_data di_attrs] in *.
    destruct (derived_members side_query [fld [] "text" text; side_paging] _ rule l' [(u "text", fld [] "text" text); (u "paging", side_paging)] ltac:(vm_compute; reflexivity) eq_refl Hr ltac:(intros s; decide_said) Hl ltac:(members)) as [-> ->].
    exists [(u "text", fld [] "text" text)]. split; [members|]. split; [intros x [<-|[] ]; now left|].
    intros n f [ [= <- <-]|[ [= <- <-]|[] ] ]; [now left; left|right]. split; [cbn; intuition discriminate|]. intros _.
    apply shape_among; eapply ma_struct; [reflexivity|decide_said|intros t Ht; exfalso; revert Ht; decide_said|].
    intros rule' l' Hr' Hl' n f Hin. rewrite (paging_members _ _ Hr' Hl') in Hin. destruct Hin as [ [= <- <-]|[] ].
    split; [decide_said|]. cbn. intuition discriminate.
  - apply nothing_flattened. intros [|[|[|id] ] ]; cbn; intros f Hf; repeat destruct Hf as [<-|Hf]; try (now destruct Hf); decide_said.
Qed.
Lemma bare_supported : supported_inside yes yes bare_sources True (TNamed 0) /\
  derived_inside yes yes noupper bare_sources DeriveExamples.same (sources_env [bare_query; flat_paging]) (TNamed 0).
Proof.
  apply (deepb_ok yes yes noupper DeriveExamples.same bare_sources (sources_env [bare_query; flat_paging]) (fun id => Nat.ltb id 2)) with (fuel := 20); [|vm_compute; reflexivity].
  intros [|[|id] ] H; try discriminate H; vm_compute; reflexivity.
Qed.

(** ** Changes that the document published before does not stand *)
(** enum State { Open } becomes enum State { Open, Closed } *)
Lemma closed_written : emits yes yes noupper zero (sources [state1]) (TNamed 0) (JStr (u "Closed")).
Proof. eapply em_external_unit; [a_variant|reflexivity]. Qed.
Lemma closed_rejected : exists m cx, schema_returns (sources_env [state4]) (TNamed 0) cx_new m cx /\ ~ valid_model (cx_schemas cx) m (JStr (u "Closed")).
Proof.
  do 2 eexists. split; [exists 20; vm_compute; reflexivity|]. intros H. inversion H; subst.
  match goal with Hx : forall l, _ = Some l -> In _ l |- _ => specialize (Hx _ eq_refl); cbn in Hx; destruct Hx as [Hx|[] ]; discriminate Hx end.
Qed.
Lemma open_derived : derived_inside yes yes noupper (sources [state4]) DeriveExamples.same (sources_env [state4]) (TNamed 0).
Proof. apply sources_derived. vm_compute. reflexivity. Qed.
Lemma closed_grows : grows yes yes (sources [state4]) (sources [state1]).
Proof.
  intros id. split; [|split].
  - destruct id as [|id]; [reflexivity|destruct id; reflexivity].
  - destruct id as [|id].
    + eapply dg_enum; [reflexivity|reflexivity|apply agree_same| |].
      * apply vg_keep; [now apply vkept_unit|]. apply vg_new, vg_nil.
      * intros [H _]. exfalso. revert H. decide_said.
    + replace (sources [state4] (S id)) with i_secret by (destruct id; reflexivity). replace (sources [state1] (S id)) with i_secret by (destruct id; reflexivity).
      eapply dg_named; [reflexivity|reflexivity|decide_said|apply agree_same|]. apply grow_same. intros f [<-|[] ]. discriminate.
  - assert (Hd : forall id, exists td, derive yes yes noupper DeriveExamples.same (sources [state1] id) = DOk td).
    { intros [|[|i] ]; eexists; vm_compute; reflexivity. }
    exact (proj1 (proj2 (proj2 (proj1 (derive_ok_iff _ _ _ _ _) (Hd id))))).
Qed.
(** the new member is not written by the types as they were *)
Lemma placed_not_before : ~ emits yes yes noupper zero shop1 (TNamed 0) placed_json.
Proof.
  intros H. assert (Hv : forall rep n v, ~ enum_variant yes yes noupper (shop1 0) rep n v) by (intros rep n v (vs & l & Hd & _); discriminate Hd).
  inversion H; subst; try discriminate; try (eapply Hv; eassumption).
  - match goal with Hd : di_data _ = _ |- _ => injection Hd as <- end.
    match goal with Hr : has_rule _ _ _ _ ?r |- _ => assert (r = RCamelCase) as -> by (eapply has_rule_unique; [|exact Hr|rule]; accepted) end.
    match goal with Hl : serialised_fields _ _ _ _ _ _ |- _ =>
      eapply plain_members in Hl; [|intros f Hf; cbn in Hf; repeat destruct Hf as [<-|Hf]; try reflexivity; destruct Hf|members]; subst end.
    match goal with Hf : emits_fields _ _ _ _ _ _ _ |- _ => inversion Hf; subst; clear Hf end;
      [exfalso; match goal with Hs : said _ _ _ _ SSkipIf |- _ => revert Hs; decide_said end| |exfalso; match goal with Hs : said _ _ _ _ SFlatten |- _ => revert Hs; decide_said end].
    match goal with Hf : emits_fields _ _ _ _ _ _ _ |- _ => inversion Hf; subst; clear Hf end;
      exfalso; match goal with Hs : said _ _ _ _ _ |- _ => revert Hs; decide_said end.
  - match goal with Ht : transparent_field _ _ _ _ |- _ => destruct Ht as (fs & k & Hfs & -> & Htr & _) end. injection Hfs as <-. revert Htr. decide_said.
Qed.
