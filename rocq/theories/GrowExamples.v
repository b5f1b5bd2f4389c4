(** Concrete changes of types for the theorems of PropGrow.v. *)
From Verif Require Import Attr AttrSpec AttrFacts Ast AstFacts Derive DeriveSpec DeriveFacts3 Schema SchemaSpec Gen GenSpec GenFacts GenFacts4 DeriveFacts DeriveFacts2 DeriveFacts5 DeriveExamples.
From Verif Require Import Doc Ser Api ApiSpec ApiFacts ApiFacts2 ApiFacts8 Conformance ApiExamples.
From Verif Require Import SoundSpec SoundFacts2 SoundFacts4 SoundFacts5 SoundCheck SoundExamples GrowSpec GrowFacts.
From Coq Require Import Arith Lia ZArith.
Local Open Scope string_scope. Local Open Scope list_scope.

Definition skip_if : attribute := serde_attr [str_value "skip_serializing_if" "Option::is_none"].
Definition camel : attribute := serde_attr [str_value "rename_all" "camelCase"].
Definition kind_tag : attribute := serde_attr [str_value "tag" "kind"].

(** before:
    #[serde(rename_all = "camelCase")] struct Order { order_id: u32, note: String, state: State, events: [Event; 2] }
    enum State { Open, Closed }
    #[serde(tag = "kind")] enum Event { Opened, Moved { place: String } } *)
Definition order1 : derive_input ty := item [camel] "Order" (DaStruct (FNamed [
  fld [] "order_id" (TPrim PU32); fld [] "note" string; fld [] "state" (TNamed 1); fld [] "events" (TSeq (KArray 2) (TNamed 2))])).
Definition state1 : derive_input ty := item [] "State" (DaEnum [vrt [] "Open" FUnit; vrt [] "Closed" FUnit]).
Definition event1 : derive_input ty := item [kind_tag] "Event" (DaEnum [vrt [] "Opened" FUnit; vrt [] "Moved" (FNamed [fld [] "place" string])]).
(** after:
    #[serde(rename_all = "camelCase")] struct Order { order_id: u64, #[serde(skip_serializing_if = "Option::is_none")] coupon: Option<String>,
      #[opg("Remarks")] note: Option<String>, state: Box<State>, events: Vec<Event> }
    enum State { Open, Paused, Closed }
    #[serde(tag = "kind")] enum Event { Opened, Moved { place: String, #[serde(skip_serializing_if = ..)] reason: Option<String> }, Priced { amount: u32 } } *)
Definition order2 : derive_input ty := item [camel] "Order" (DaStruct (FNamed [
  fld [] "order_id" (TPrim PU64); fld [skip_if] "coupon" (TOption string); fld [opg_attr [NLit (LStr (u "Remarks"))]] "note" (TOption string);
  fld [] "state" (TWrap WBox (TNamed 1)); fld [] "events" (TSeq KVec (TNamed 2))])).
Definition state2 : derive_input ty := item [] "State" (DaEnum [vrt [] "Open" FUnit; vrt [] "Paused" FUnit; vrt [] "Closed" FUnit]).
Definition event2 : derive_input ty := item [kind_tag] "Event" (DaEnum [vrt [] "Opened" FUnit;
  vrt [] "Moved" (FNamed [fld [] "place" string; fld [skip_if] "reason" (TOption string)]); vrt [] "Priced" (FNamed [fld [] "amount" (TPrim PU32)])]).
Definition shop1 := sources [order1; state1; event1].
Definition shop2 := sources [order2; state2; event2].
Definition shop_env : env := sources_env [order2; state2; event2].

Lemma shop_derived id : derive yes yes noupper DeriveExamples.same (shop2 id) = DOk (shop_env id).
Proof. unfold shop2, shop_env, sources, sources_env. rewrite map_nth. do 3 (destruct id as [|id]; [vm_compute; reflexivity|]). destruct id; vm_compute; reflexivity. Qed.
Lemma agree_same pos l : agree yes yes pos l l.
Proof. intros x _. reflexivity. Qed.
Lemma kept_same f : field_kept yes yes f f.
Proof. split; [apply agree_same|]. split; [auto|]. split; [reflexivity|apply wd_same]. Qed.
Lemma grow_same fs : (forall f, In f fs -> fs_ident f <> None) -> fields_grow yes yes fs fs.
Proof.
  induction fs as [|f fs IH]; intros H; constructor; [apply kept_same|apply H; now left|]. apply IH. intros g Hg. apply H. now right.
Qed.
Lemma vkept_unit v : unit_variant v -> variant_kept yes yes v v.
Proof. intros H. split; [apply agree_same|]. split; [reflexivity|]. split; [reflexivity|]. rewrite H. exact I. Qed.
(** what is said by attributes that decide nothing *)
Lemma agree_documented pos l l' its its' : items_written l = Some its -> items_written l' = Some its' ->
  (forall x, decides x -> (In x (flat_map (item_set yes yes pos) its) <-> In x (flat_map (item_set yes yes pos) its'))) -> agree yes yes pos l l'.
Proof. intros H H' Ha x Hx. rewrite (said_decide _ _ _ _ _ _ H), (said_decide _ _ _ _ _ _ H'). now apply Ha. Qed.

Lemma shop_grows : grows yes yes shop1 shop2.
Proof.
  intros id. split; [|split].
  - do 3 (destruct id as [|id]; [reflexivity|]). destruct id; reflexivity.
  - destruct id as [|[|[|id] ] ].
    + eapply dg_named; [reflexivity|reflexivity|decide_said|apply agree_same|].
      apply fg_keep; [|discriminate|].
      { split; [apply agree_same|]. split; [auto|]. split; [reflexivity|]. eapply wd_int; [reflexivity|reflexivity|]. left. split; [reflexivity|lia]. }
      apply fg_new; [right; decide_said|]. apply fg_keep; [|discriminate|].
      { split; [eapply agree_documented; [vm_compute; reflexivity|vm_compute; reflexivity|]|].
        - intros x Hx. vm_compute. split; [intros []|intros [<-|[] ]; destruct Hx].
        - split; [intros H; exfalso; revert H; decide_said|]. split; [reflexivity|]. apply wd_option, wd_same. }
      apply fg_keep; [|discriminate|].
      { split; [apply agree_same|]. split; [auto|]. split; [reflexivity|]. apply wd_wrap; [discriminate|apply wd_same]. }
      apply fg_keep; [|discriminate|apply fg_nil].
      split; [apply agree_same|]. split; [auto|]. split; [reflexivity|]. apply wd_seq; [intros n Hn; discriminate Hn|apply wd_same].
    + eapply dg_enum; [reflexivity|reflexivity|apply agree_same| |].
      * apply vg_keep; [now apply vkept_unit|]. apply vg_new. apply vg_keep; [now apply vkept_unit|]. apply vg_nil.
      * intros [H _]. exfalso. revert H. decide_said.
    + eapply dg_enum; [reflexivity|reflexivity|apply agree_same| |].
      * apply vg_keep; [now apply vkept_unit|]. apply vg_keep; [|apply vg_new, vg_nil].
        split; [apply agree_same|]. split; [reflexivity|]. split; [reflexivity|]. cbn. apply fg_keep; [apply kept_same|discriminate|].
        apply fg_new; [right; decide_said|apply fg_nil].
      * intros [H _]. exfalso. revert H. decide_said.
    + replace (shop1 (S (S (S id)))) with i_secret by (destruct id; reflexivity). replace (shop2 (S (S (S id)))) with i_secret by (destruct id; reflexivity).
      eapply dg_named; [reflexivity|reflexivity|decide_said|apply agree_same|]. apply grow_same. intros f [<-|[] ]. discriminate.
  - exact (proj1 (proj2 (proj2 (proj1 (derive_ok_iff _ _ _ _ _) (ex_intro _ _ (shop_derived id)))))).
Qed.

Definition order_json : json := JObj [(u "orderId", JInt 7); (u "note", JStr (u "x")); (u "state", JStr (u "Open"));
  (u "events", JArr [JObj [(u "kind", JStr (u "Opened"))]; JObj [(u "kind", JStr (u "Moved")); (u "place", JStr (u "y"))] ])].
Lemma order_written : emits yes yes noupper zero shop1 (TNamed 0) order_json.
Proof.
  assert (Hs : forall s, emits yes yes noupper zero shop1 string (JStr s)) by (intros s; apply em_prim, pm_text; cbn; tauto).
  plain_struct RCamelCase; [rule|members|]. emit; [apply em_prim, (pm_int _ false 32%Z); [reflexivity|cbn; lia]|]. emit; [apply Hs|].
  emit; [eapply em_external_unit; [a_variant|reflexivity]|]. emit; [|apply ef_nil].
  apply em_seq; [|intros n [= <-]; reflexivity].
  apply el_cons; [eapply em_internal_unit; [a_variant|reflexivity]|].
  apply el_cons; [|apply el_nil].
  eapply em_internal; [a_variant| |cbn; intros [H|[] ]; discriminate H].
  eapply ep_struct with (rule := RNone); [reflexivity|rule|cbn; members|]. emit; [apply Hs|apply ef_nil].
Qed.
Lemma shop_supported : supported_inside yes yes shop2 True (TNamed 0) /\ derived_inside yes yes noupper shop2 DeriveExamples.same shop_env (TNamed 0).
Proof.
  apply (deepb_ok yes yes noupper DeriveExamples.same shop2 shop_env (fun _ => true) (fun id _ => shop_derived id) 20). vm_compute. reflexivity.
Qed.
Definition shop_calls : list mention_call := [named_call 0].
Definition shop_cx : components := Eval vm_compute in match mention_all shop_env 20 shop_calls cx_new with Ok cx => cx | Fuel => cx_new end.
Lemma shop_return : mentions_return shop_env shop_calls cx_new shop_cx.
Proof. exists 20. vm_compute. reflexivity. Qed.
Definition shop_sites : list site := Eval vm_compute in
  (call_sites shop_calls ++ flat_map (fun id => sites_of shop_env (TNamed id)) [0; 1; 2] ++
   flat_map (fun t => sites_of shop_env t) [TOption string; TWrap WBox (TNamed 1); TSeq KVec (TNamed 2)]).
Lemma shop_unambiguous : names_unambiguous shop_env (call_sites shop_calls).
Proof.
  assert (Hv : forall s, visited shop_env (call_sites shop_calls) s -> In s shop_sites) by (apply visited_in_list; vm_compute; reflexivity).
  apply (names_checked _ _ shop_sites Hv). vm_compute. reflexivity.
Qed.
Lemma shop_mention : mention_returns shop_env (TNamed 0) false params_default cx_new (Link (u "Order")) shop_cx.
Proof. exists 20. vm_compute. reflexivity. Qed.

(** ** Changes that the schema does not stand *)
(** struct Secret { key: String } becomes struct Secret { key: String, hint: Option<String> } *)
Definition hint_added : derive_input ty := item [] "Secret" (DaStruct (FNamed [fld [] "key" text; fld [] "hint" (TOption text)])).
Lemma secret_written : emits yes yes noupper zero (sources [i_secret]) (TNamed 0) (JObj [(u "key", JStr (u "k"))]).
Proof. plain_struct RNone; [rule|members|]. emit; [apply em_prim, pm_text; cbn; tauto|apply ef_nil]. Qed.
Lemma hint_rejects : exists m cx, schema_returns (sources_env [hint_added]) (TNamed 0) cx_new m cx /\ ~ valid_model (cx_schemas cx) m (JObj [(u "key", JStr (u "k"))]).
Proof.
  do 2 eexists. split; [exists 20; vm_compute; reflexivity|]. intros H. inversion H; subst.
  match goal with Hr : forall k, In k _ -> In k _ |- _ => specialize (Hr (u "hint") (or_intror (or_introl eq_refl))); cbn in Hr; destruct Hr as [Hr|[] ]; discriminate Hr end.
Qed.
Lemma hint_derived : derived_inside yes yes noupper (sources [hint_added]) DeriveExamples.same (sources_env [hint_added]) (TNamed 0).
Proof. apply sources_derived. vm_compute. reflexivity. Qed.
(** enum Mixed { Empty } becomes enum Mixed { Empty, Size(i32) } *)
Definition only_empty : derive_input ty := item [] "Mixed" (DaEnum [vrt [] "Empty" FUnit]).
Lemma mixed_grows : grows yes yes (sources [only_empty]) (sources [unit_or]).
Proof.
  intros id. split; [|split].
  - destruct id as [|id]; [reflexivity|destruct id; reflexivity].
  - destruct id as [|id].
    + eapply dg_enum; [reflexivity|reflexivity|apply agree_same| |].
      * apply vg_keep; [now apply vkept_unit|]. apply vg_new, vg_nil.
      * intros [H _]. exfalso. revert H. decide_said.
    + replace (sources [only_empty] (S id)) with i_secret by (destruct id; reflexivity). replace (sources [unit_or] (S id)) with i_secret by (destruct id; reflexivity).
      eapply dg_named; [reflexivity|reflexivity|decide_said|apply agree_same|]. apply grow_same. intros f [<-|[] ]. discriminate.
  - assert (Hd : forall id, exists td, derive yes yes noupper DeriveExamples.same (sources [unit_or] id) = DOk td).
    { intros [|[|i] ]; eexists; vm_compute; reflexivity. }
    exact (proj1 (proj2 (proj2 (proj1 (derive_ok_iff _ _ _ _ _) (Hd id))))).
Qed.
Lemma empty_written : emits yes yes noupper zero (sources [only_empty]) (TNamed 0) (JStr (u "Empty")).
Proof. eapply em_external_unit; [a_variant|reflexivity]. Qed.
