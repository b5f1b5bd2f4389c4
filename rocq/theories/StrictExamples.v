(** Concrete types for the theorems of PropStrict.v. *)
From Verif Require Import Attr AttrSpec AttrFacts Ast AstFacts Derive DeriveSpec Schema SchemaSpec Gen GenSpec GenFacts GenFacts4 DeriveFacts DeriveFacts2 DeriveFacts5 DeriveExamples.
From Verif Require Import SoundSpec SoundFacts2 SoundFacts3 SoundFacts4 SoundFacts5 SoundCheck SoundExamples StrictSpec StrictFacts StrictFacts2 StrictFacts3 StrictFacts4.
From Coq Require Import Arith Lia ZArith.
Local Open Scope string_scope. Local Open Scope list_scope.

(** ** Types whose alternatives are told apart *)
(** struct Point { x: i32, y: i32 } *)
Definition s_point : derive_input ty := item [] "Point" (DaStruct (FNamed [fld [] "x" i32; fld [] "y" i32])).
(** #[serde(untagged)] enum Value { Number(i32), Text(String), At { place: Point } } *)
Definition value_variants : list (variant_syn ty) :=
  [vrt [] "Number" (FUnnamed [pos_fld [] i32]); vrt [] "Text" (FUnnamed [pos_fld [] text]); vrt [] "At" (FNamed [fld [] "place" (TNamed 0)])].
Definition s_value : derive_input ty := item [serde_attr [word_item "untagged"]] "Value" (DaEnum value_variants).
(** #[serde(tag = "type")] enum Event { Moved(Point), Stopped, Said { text: String } } *)
Definition event_variants : list (variant_syn ty) :=
  [vrt [] "Moved" (FUnnamed [pos_fld [] (TNamed 0)]); vrt [] "Stopped" FUnit; vrt [] "Said" (FNamed [fld [] "text" text])].
Definition s_event : derive_input ty := item [serde_attr [str_value "tag" "type"]] "Event" (DaEnum event_variants).
(** #[serde(tag = "t", content = "c")] enum Reply { Code(i32), Pair(String, bool) } *)
Definition reply_variants : list (variant_syn ty) :=
  [vrt [] "Code" (FUnnamed [pos_fld [] i32]); vrt [] "Pair" (FUnnamed [pos_fld [] text; pos_fld [] (TPrim PBool)])].
Definition s_reply : derive_input ty := item [serde_attr [str_value "tag" "t"; str_value "content" "c"]] "Reply" (DaEnum reply_variants).
(** struct Report { value: Value, events: Vec<Event>, pair: (Option<i32>, String), reply: Reply } *)
Definition s_report : derive_input ty := item [] "Report" (DaStruct (FNamed
  [fld [] "value" (TNamed 1); fld [] "events" (TSeq KVec (TNamed 2)); fld [] "pair" (TTuple [TOption i32; text]); fld [] "reply" (TNamed 3)])).
Definition report_types : list (derive_input ty) := [s_point; s_value; s_event; s_reply; s_report].
Notation report_sources := (sources report_types).
Definition report_env : env := sources_env report_types.

Definition report_calls : list mention_call := [named_call 4].
Definition report_cx : components := Eval vm_compute in
  match mention_all report_env 20 report_calls cx_new with Ok cx => cx | Fuel => cx_new end.
Lemma report_return : mentions_return report_env report_calls cx_new report_cx.
Proof. exists 20. vm_compute. reflexivity. Qed.
Definition report_sites : list site := Eval vm_compute in
  (call_sites report_calls ++ flat_map (fun id => sites_of report_env (TNamed id)) [0; 1; 2; 3; 4] ++
   flat_map (fun t => sites_of report_env t) [TSeq KVec (TNamed 2); TTuple [TOption i32; text]; TOption i32; i32; text; TPrim PBool]).
Lemma report_visited s : visited report_env (call_sites report_calls) s -> In s report_sites.
Proof. apply visited_in_list; vm_compute; reflexivity. Qed.
Lemma report_unambiguous : names_unambiguous report_env (call_sites report_calls).
Proof. apply (names_checked _ _ report_sites report_visited). vm_compute. reflexivity. Qed.

Lemma plain_acceptable pos : acceptable yes yes pos [].
Proof. exists []. split; [constructor|]. split; [intros f n []|]. intros (l1 & f1 & n1 & l2 & f2 & n2 & l3 & x & y & H & _). destruct l1; discriminate. Qed.
Lemma contains_visited E t t' : contains E t t' -> forall roots s, visited E roots s -> site_ty s = t -> exists s', visited E roots s' /\ site_ty s' = t'.
Proof.
  induction 1 as [t t' (s1 & H1 & <-)|t t1 t' (s1 & H1 & <-) Hc IH]; intros roots s Hv <-.
  - exists s1. split; [now apply vis_step with s|reflexivity].
  - apply (IH roots s1); [now apply vis_step with s|reflexivity].
Qed.
Lemma plain_names tag pos fs l : serialised_fields yes yes RNone 0 fs l -> forallb (fun f => match fs_attrs f with [] => true | _ => false end) fs = true ->
  ~ In tag (map fst l) -> no_field_named yes yes tag pos [] fs.
Proof.
  intros Hl Hp Hn rule l' Hr Hl'. assert (rule = RNone) as -> by (apply (has_rule_unique yes yes pos [] _ _ (plain_acceptable _) Hr); rule).
  assert (l' = l) as -> by (eapply serialised_fields_unique; eauto; rewrite forallb_forall in Hp; intros f Hf; specialize (Hp f Hf); destruct (fs_attrs f); [apply plain_acceptable|discriminate]).
  exact Hn.
Qed.
Lemma enum_known i vs rep l : forallb (fun v => match vs_attrs v with [] => true | _ => false end) vs = true -> di_data i = DaEnum vs ->
  acceptable yes yes (PContainer DkEnum) (di_attrs i) -> represents yes yes (di_attrs i) rep -> enum_variants yes yes noupper i vs l ->
  forall rep' l', represents yes yes (di_attrs i) rep' -> enum_variants yes yes noupper i vs l' -> rep' = rep /\ l' = l.
Proof.
  intros Hp Hd Ha Hr (rule & H1 & H2) rep' l' Hr' (rule' & H1' & H2'). split; [eapply represents_unique; eauto|].
  assert (rule' = rule) as -> by (eapply has_rule_unique; eauto).
  eapply serialised_variants_unique; eauto. rewrite forallb_forall in Hp. intros v Hv. specialize (Hp v Hv). destruct (vs_attrs v); [apply plain_acceptable|discriminate].
Qed.
Lemma report_derived id : id < 5 -> ex_derive (report_sources id) = DOk (report_env id).
Proof. intros H. do 5 (destruct id as [|id]; [vm_compute; reflexivity|]). lia. Qed.
Lemma report_acceptable id vs : id < 5 -> di_data (report_sources id) = DaEnum vs -> acceptable yes yes (PContainer DkEnum) (di_attrs (report_sources id)).
Proof.
  intros Hi Hd. destruct (derive_inv _ _ _ _ _ _ (report_derived _ Hi)) as (c & Hc & _). pose proof (cp_acc _ _ _ _ _ Hc) as H. now rewrite Hd in H.
Qed.
Lemma plain_untyped f : fs_attrs f = [] -> ~ typed_by_flag yes yes f.
Proof. intros H [t Ht]. rewrite H in Ht. decide_said. Qed.
Ltac kinds := repeat split; try discriminate; try (intros [[?|?] [?|?] ]; discriminate).
Ltac no_null := intros [H1 H2]; first [destruct H2 as [H2|H2] | idtac]; first [now inversion H1 | now inversion H2 | decide_said].
Lemma fields_prim (w : Prop) a b p q : kinds_apart (prim_kind p) (prim_kind q) -> p <> PUnit -> fs_attrs a = [] -> fs_attrs b = [] -> fs_ty a = TPrim p -> fs_ty b = TPrim q ->
  fields_apart yes yes report_sources w a b.
Proof.
  intros Hk Hp Ha Hb Hta Htb. split.
  - left. exists (prim_kind p), (prim_kind q). split; [split; [now apply plain_untyped|rewrite Hta; constructor]|]. split; [split; [now apply plain_untyped|rewrite Htb; constructor]|exact Hk].
  - intros [[H|H] _]; [rewrite Hta in H; inversion H; congruence|rewrite Ha in H; decide_said].
Qed.
Lemma plain_null f p : fs_attrs f = [] -> fs_ty f = TPrim p -> p <> PUnit -> ~ field_null yes yes report_sources f.
Proof. intros Ha Ht Hp [H|H]; [rewrite Ht in H; inversion H; congruence|rewrite Ha in H; decide_said]. Qed.
Lemma report_apart w id : id < 5 -> input_apart yes yes noupper report_sources w (report_sources id).
Proof.
  intros Hi. destruct id as [|[|[|[|[|id] ] ] ] ]; [exact I| | | |exact I|lia]; (split; [intros [H _]; decide_said|]); intros _ rep l Hr Hl;
    (match type of Hl with enum_variants _ _ _ ?i ?vs _ => edestruct (enum_known i vs) as [-> ->] end; [reflexivity|reflexivity| | | |exact Hr|exact Hl|];
     [eapply (report_acceptable _ _ Hi); reflexivity|apply rep_said_ok; vm_compute; reflexivity|exists RNone; split; [rule|cbn; variants]|]).
  - split; [intros n v [[= <- <-]|[[= <- <-]|[[= <- <-]|[] ] ] ]; cbn; first [now left|exact I]|]. cbn [map snd].
    assert (Hnn : ~ content_null yes yes report_sources (vrt [] "Number" (FUnnamed [pos_fld [] i32]))).
    { intros (f & [= <-] & Hf). revert Hf. eapply plain_null; [reflexivity|reflexivity|discriminate]. }
    assert (Htn : ~ content_null yes yes report_sources (vrt [] "Text" (FUnnamed [pos_fld [] text]))).
    { intros (f & [= <-] & Hf). revert Hf. eapply plain_null; [reflexivity|reflexivity|discriminate]. }
    constructor; [constructor; [|constructor; [|constructor] ]|constructor; [constructor; [|constructor]|constructor; [constructor|constructor] ] ]; (split; [|tauto]).
    + left. exists KInteger, KString. cbn. repeat split; first [now apply plain_untyped|apply (hk_prim _ _ _ PI32)|apply (hk_prim _ _ _ PString)|idtac]; kinds.
    + left. exists KInteger, KObject. cbn. repeat split; first [now apply plain_untyped|apply (hk_prim _ _ _ PI32)|idtac]; kinds.
    + left. exists KString, KObject. cbn. repeat split; first [now apply plain_untyped|apply (hk_prim _ _ _ PString)|idtac]; kinds.
  - split; [intros n v [[= <- <-]|[[= <- <-]|[[= <- <-]|[] ] ] ]; cbn; first [now left|exact I]|].
    split; [vm_compute; repeat constructor; cbn; intuition discriminate|].
    intros n v [[= <- <-]|[[= <- <-]|[[= <- <-]|[] ] ] ]; cbn.
    + split.
      * eapply ow_struct; [reflexivity|]. eapply plain_names; [members|reflexivity|]. vm_compute. intuition discriminate.
      * intros [H|H]; [|decide_said]. inversion H; subst; try discriminate. decide_said.
    + exact I.
    + eapply plain_names; [members|reflexivity|]. vm_compute. intuition discriminate.
  - split.
    + intros n v [[= <- <-]|[[= <- <-]|[] ] ]; cbn; [now left|]. right. constructor; [|constructor; constructor]. constructor; [|constructor].
      eapply fields_prim; try reflexivity; [|discriminate]. cbn. kinds.
    + cbn [map snd]. constructor; [|constructor; constructor]. constructor; [|constructor]. split.
      * left. exists KInteger, KArray_. cbn. repeat split; first [now apply plain_untyped|apply (hk_prim _ _ _ PI32)|idtac]; kinds.
      * intros [(f & [= <-] & Hf) _]. revert Hf. eapply plain_null; [reflexivity|reflexivity|discriminate].
Qed.
Lemma report_told_apart w : told_apart yes yes noupper report_sources w same report_env (TNamed 4).
Proof.
  assert (Hv : forall t, TNamed 4 = t \/ contains report_env (TNamed 4) t -> In t (map site_ty report_sites)).
  { intros t Ht. assert (exists s, visited report_env (call_sites report_calls) s /\ site_ty s = t) as (s & Hs & <-).
    { destruct Ht as [<-|Ht]; [exists (SMention (TNamed 4) false); split; [now apply vis_root; left|reflexivity]|].
      apply (contains_visited _ _ _ Ht _ (SMention (TNamed 4) false)); [now apply vis_root; left|reflexivity]. }
    apply in_map. now apply report_visited. }
  split.
  - intros id H. assert (Hi : id < 5).
    { destruct H as [[= <-]|H]; [lia|]. specialize (Hv _ (or_intror H)). cbn in Hv.
      repeat (destruct Hv as [Hv|Hv]; [first [discriminate Hv | injection Hv as <-; lia]|]). destruct Hv. }
    split; [now apply report_derived|now apply report_apart].
  - intros ts [H|H]; [discriminate|]. specialize (Hv _ (or_intror H)). cbn in Hv.
    repeat (destruct Hv as [Hv|Hv]; [first [discriminate Hv | injection Hv as <-; constructor; [constructor; [|constructor]|constructor; constructor];
      split; [left; exists KInteger, KString; split; [apply hk_option, (hk_prim _ _ _ PI32)|split; [apply (hk_prim _ _ _ PString)|kinds] ]|intros [_ Hn]; inversion Hn] ]|]). destruct Hv.
Qed.

(** Report { value: Value::Text("hi"), events: [Moved(Point { x: 1, y: 2 }), Stopped], pair: (None, "p"), reply: Pair("ok", true) } *)
Definition report_json : json := JObj
  [(u "value", JStr (u "hi"));
   (u "events", JArr [JObj [(u "type", JStr (u "Moved")); (u "x", JInt 1); (u "y", JInt 2)]; JObj [(u "type", JStr (u "Stopped"))]]);
   (u "pair", JArr [JNull; JStr (u "p")]);
   (u "reply", JObj [(u "t", JStr (u "Pair")); (u "c", JArr [JStr (u "ok"); JBool true])])].
Notation report_emits := (emits yes yes noupper zero report_sources).
Lemma report_int z : (-2147483648 <= z < 2147483648)%Z -> report_emits i32 (JInt z).
Proof. intros H. apply em_prim. apply (pm_int _ true 32%Z); [reflexivity|]. cbn. lia. Qed.
Lemma report_text s : report_emits text (JStr s).
Proof. apply em_prim, pm_text. cbn. tauto. Qed.
Lemma report_json_emits : report_emits (TNamed 4) report_json.
Proof.
  plain_struct RNone; [rule|members|].
  emit; [|emit; [|emit; [|emit; [|apply ef_nil] ] ] ].
  - eapply em_untagged with (n := u "Text"); [a_variant|]. eapply ep_newtype; [reflexivity|]. apply report_text.
  - apply em_seq; [|discriminate]. apply el_cons; [|apply el_cons; [|apply el_nil] ].
    + eapply em_internal with (v := vrt [] "Moved" (FUnnamed [pos_fld [] (TNamed 0)])); [a_variant| |vm_compute; intuition discriminate].
      eapply ep_newtype; [reflexivity|]. plain_struct RNone; [rule|members|].
      emit; [apply report_int; lia|]. emit; [apply report_int; lia|]. apply ef_nil.
    + eapply em_internal_unit; [a_variant|reflexivity].
  - apply em_tuple. apply ee_cons; [apply em_none|]. apply ee_cons; [apply report_text|]. apply ee_nil.
  - eapply em_adjacent with (v := vrt [] "Pair" (FUnnamed [pos_fld [] text; pos_fld [] (TPrim PBool)])); [a_variant|].
    eapply ep_tuple; [reflexivity|discriminate|]. apply eu_emit; [unfold field_skipped; decide_said|apply report_text|].
    apply eu_emit; [unfold field_skipped; decide_said|apply em_prim, pm_bool; now left|]. apply eu_nil.
Qed.
Lemma report_supported : supported_inside yes yes report_sources False (TNamed 4) /\ derived_inside yes yes noupper report_sources same report_env (TNamed 4).
Proof.
  apply (deepb_ok yes yes noupper same report_sources report_env (fun id => Nat.ltb id 5)) with (fuel := 20); [|vm_compute; reflexivity].
  intros id H. apply Nat.ltb_lt in H. now apply report_derived.
Qed.

(** ** Alternatives told apart by their members only *)
(** #[serde(untagged)] enum Target { Person { name: String, #[serde(skip_serializing_if = "is_none")] age: Option<i32> }, Place { city: String }, All(Point) } *)
Definition person_fields : list (field_syn ty) := [fld [] "name" text; fld [serde_attr [str_value "skip_serializing_if" "is_none"]] "age" (TOption i32)].
Definition target_variants : list (variant_syn ty) :=
  [vrt [] "Person" (FNamed person_fields); vrt [] "Place" (FNamed [fld [] "city" text]); vrt [] "All" (FUnnamed [pos_fld [] (TNamed 0)])].
Definition s_target : derive_input ty := item [serde_attr [word_item "untagged"]] "Target" (DaEnum target_variants).
Definition target_types : list (derive_input ty) := [s_point; s_target].
Notation target_sources := (sources target_types).
Definition target_env : env := sources_env target_types.
Definition target_calls : list mention_call := [named_call 1].
Definition target_cx : components := Eval vm_compute in
  match mention_all target_env 20 target_calls cx_new with Ok cx => cx | Fuel => cx_new end.
Lemma target_return : mentions_return target_env target_calls cx_new target_cx.
Proof. exists 20. vm_compute. reflexivity. Qed.
Definition target_sites : list site := Eval vm_compute in
  (call_sites target_calls ++ flat_map (fun id => sites_of target_env (TNamed id)) [0; 1] ++ flat_map (fun t => sites_of target_env t) [TOption i32; i32; text]).
Lemma target_visited s : visited target_env (call_sites target_calls) s -> In s target_sites.
Proof. apply visited_in_list; vm_compute; reflexivity. Qed.
Lemma target_unambiguous : names_unambiguous target_env (call_sites target_calls).
Proof. apply (names_checked _ _ target_sites target_visited). vm_compute. reflexivity. Qed.
Lemma target_derived id : id < 2 -> ex_derive (target_sources id) = DOk (target_env id).
Proof. intros H. do 2 (destruct id as [|id]; [vm_compute; reflexivity|]). lia. Qed.
Ltac more := eexists _, _; split; [now left|split; [intros [?|?]; decide_said|vm_compute; intuition discriminate] ].
Lemma target_apart id : id < 2 -> input_apart yes yes noupper target_sources True (target_sources id).
Proof.
  intros Hi. destruct id as [|[|id] ]; [exact I| |lia]. split; [intros [H _]; decide_said|]. intros _ rep l Hr Hl.
  match type of Hl with enum_variants _ _ _ ?i ?vs _ => edestruct (enum_known i vs) as [-> ->] end; [reflexivity|reflexivity| | | |exact Hr|exact Hl|].
  { destruct (derive_inv _ _ _ _ _ _ (target_derived 1 ltac:(lia))) as (c & Hc & _). pose proof (cp_acc _ _ _ _ _ Hc) as H. exact H. }
  { apply rep_said_ok; vm_compute; reflexivity. }
  { exists RNone; split; [rule|cbn; variants]. }
  split; [intros n v [[= <- <-]|[[= <- <-]|[[= <- <-]|[] ] ] ]; cbn; first [now left|exact I]|]. cbn [map snd].
  assert (Hp : forall fs n, ~ content_null yes yes target_sources (vrt [] n (FNamed fs))) by (intros fs n (f & [=] & _)).
  assert (H1 : content_members yes yes target_sources RepUntagged (vrt [] "Person" (FNamed person_fields)) [(u "name", fld [] "name" text); (u "age", fld [serde_attr [str_value "skip_serializing_if" "is_none"]] "age" (TOption i32))]).
  { split; [discriminate|]. exists RNone. split; [rule|members]. }
  assert (H2 : content_members yes yes target_sources RepUntagged (vrt [] "Place" (FNamed [fld [] "city" text])) [(u "city", fld [] "city" text)]).
  { split; [discriminate|]. exists RNone. split; [rule|members]. }
  assert (H3 : content_members yes yes target_sources RepUntagged (vrt [] "All" (FUnnamed [pos_fld [] (TNamed 0)])) [(u "x", fld [] "x" i32); (u "y", fld [] "y" i32)]).
  { split; [now apply plain_untyped|]. eapply wf_struct with (rule := RNone); [reflexivity|rule|members]. }
  constructor; [constructor; [|constructor; [|constructor] ]|constructor; [constructor; [|constructor]|constructor; [constructor|constructor] ] ];
    (split; [right; split; [exact I|]; eexists _, _; split; [eassumption|split; [eassumption|split; more] ]|intros [Hx _]; revert Hx; apply Hp]).
Qed.
Lemma target_told_apart : told_apart yes yes noupper target_sources True same target_env (TNamed 1).
Proof.
  assert (Hv : forall t, TNamed 1 = t \/ contains target_env (TNamed 1) t -> In t (map site_ty target_sites)).
  { intros t Ht. assert (exists s, visited target_env (call_sites target_calls) s /\ site_ty s = t) as (s & Hs & <-).
    { destruct Ht as [<-|Ht]; [exists (SMention (TNamed 1) false); split; [now apply vis_root; left|reflexivity]|].
      apply (contains_visited _ _ _ Ht _ (SMention (TNamed 1) false)); [now apply vis_root; left|reflexivity]. }
    apply in_map. now apply target_visited. }
  split.
  - intros id H. assert (Hi : id < 2).
    { destruct H as [[= <-]|H]; [lia|]. specialize (Hv _ (or_intror H)). cbn in Hv.
      repeat (destruct Hv as [Hv|Hv]; [first [discriminate Hv | injection Hv as <-; lia]|]). destruct Hv. }
    split; [now apply target_derived|now apply target_apart].
  - intros ts [H|H]; [discriminate|]. specialize (Hv _ (or_intror H)). cbn in Hv.
    repeat (destruct Hv as [Hv|Hv]; [discriminate Hv|]). destruct Hv.
Qed.
Lemma target_supported : supported_inside yes yes target_sources False (TNamed 1) /\ derived_inside yes yes noupper target_sources same target_env (TNamed 1).
Proof.
  apply (deepb_ok yes yes noupper same target_sources target_env (fun id => Nat.ltb id 2)) with (fuel := 20); [|vm_compute; reflexivity].
  intros id H. apply Nat.ltb_lt in H. now apply target_derived.
Qed.
(** Target::Person { name: "Ann", age: None } *)
Definition target_json : json := JObj [(u "name", JStr (u "Ann"))].
Lemma target_json_emits : emits yes yes noupper zero target_sources (TNamed 1) target_json.
Proof.
  eapply em_untagged with (n := u "Person") (v := vrt [] "Person" (FNamed person_fields)); [a_variant|]. eapply ep_struct with (rule := RNone); [reflexivity|rule|members|].
  emit; [apply em_prim, pm_text; cbn; tauto|]. apply ef_omit; [decide_said|]. apply ef_nil.
Qed.
(** a document with the members of both *)
Definition target_both : json := JObj [(u "name", JStr (u "Ann")); (u "city", JStr (u "Ulm"))].
Lemma target_both_read : valid (cx_schemas target_cx) (Link (u "Target")) target_both /\ rejects (cx_schemas target_cx) (Link (u "Target")) target_both.
Proof.
  split.
  - eapply va_link; [vm_compute; reflexivity|]. eapply vm_oneof; [now left|]. apply va_inline. apply vm_object; [intros k [<-|[] ]; vm_compute; tauto| |discriminate].
    intros k j r [[= <- <-]|[[= <- <-]|[] ] ] Hg; vm_compute in Hg; [|discriminate]. injection Hg as <-. apply va_inline, vm_string. discriminate.
  - eapply rj_link; [vm_compute; reflexivity|]. eapply (rm_oneof_two _ _ [] _ [] _ [_]); apply ac_inline; (apply am_object; [intros k [<-|[] ]; vm_compute; tauto| |discriminate]);
      intros k j r [[= <- <-]|[[= <- <-]|[] ] ] Hg; vm_compute in Hg; try discriminate; injection Hg as <-; apply ac_inline, am_string; discriminate.
Qed.

(** ** Types whose alternatives overlap *)
Lemma lap l t j m S : forallb (fun i => match ex_derive i with DOk _ => true | _ => false end) (i_secret :: l) = true ->
  schema_at l t = Some (m, S) -> emits yes yes noupper zero (sources l) t j -> valid_model S m j -> rejects_model S m j ->
  overlapping yes yes noupper same zero (sources l) (sources_env l) t j.
Proof.
  intros Hl Hs Hj Hv Hr. split; [now apply sources_derived|]. split; [exact Hj|]. unfold schema_at in Hs.
  destruct (get_schema _ _ _ _) as [[m' cx]|] eqn:Eg; [|discriminate]. injection Hs as -> <-. exists m, cx. split; [now exists 20|now split].
Qed.
Ltac an_int := apply em_prim; apply (pm_int _ true 32%Z); [reflexivity|]; cbn; lia.
Ltac int_ok := first [apply va_inline, vm_integer | apply ac_inline, am_integer].
Ltac both := eapply (rm_oneof_two _ _ [] _ [] _ []); apply ac_inline, am_integer.
Lemma lap_tuple : overlapping yes yes noupper same zero (sources []) (sources_env []) (TTuple [i32; i32]) (JArr [JInt 1; JInt 2]).
Proof.
  eapply lap; [vm_compute; reflexivity|schema| | |].
  - apply em_tuple. apply ee_cons; [an_int|]. apply ee_cons; [an_int|]. apply ee_nil.
  - apply vm_array. intros j [<-|[<-|[] ] ]; apply va_inline; eapply vm_oneof; [now left|int_ok|now left|int_ok].
  - eapply rm_item; [now left|]. apply rj_inline. both.
Qed.
Lemma lap_repr : overlapping yes yes noupper same zero (sources [i_level]) (sources_env [i_level]) (TNamed 0) (JInt 0).
Proof.
  eapply lap; [vm_compute; reflexivity|schema| | |].
  - eapply em_repr with (n := u "Low") (v := vrt_disc "Low" "1"); [reflexivity| |exists RNone; split; [rule|cbn; variants]|cbn; tauto|cbn; tauto].
    split; [decide_said|]. intros v [<-|[<-|[] ] ]; reflexivity.
  - eapply vm_oneof; [now left|int_ok].
  - both.
Qed.
(** enum Length { Metres(i32), Feet(i32) } *)
Definition length_variants : list (variant_syn ty) := [vrt [] "Metres" (FUnnamed [pos_fld [] i32]); vrt [] "Feet" (FUnnamed [pos_fld [] i32])].
Definition s_length (l : list attribute) : derive_input ty := item l "Length" (DaEnum length_variants).
Definition s_external := s_length [].
Definition s_untagged := s_length [serde_attr [word_item "untagged"]].
Definition s_adjacent := s_length [serde_attr [str_value "tag" "t"; str_value "content" "c"]].
Lemma lap_external : overlapping yes yes noupper same zero (sources [s_external]) (sources_env [s_external]) (TNamed 0) (JObj [(u "Feet", JInt 3)]).
Proof.
  eapply lap; [vm_compute; reflexivity|schema| | |].
  - eapply em_external with (v := vrt [] "Feet" (FUnnamed [pos_fld [] i32])); [a_variant|]. eapply ep_newtype; [reflexivity|an_int].
  - apply vm_object; [intros k []|discriminate|]. intros k j r [[= <- <-]|[] ] _ [= <-]. apply va_inline. eapply vm_oneof; [now left|int_ok].
  - eapply rm_additional; [now left|reflexivity|]. apply rj_inline. both.
Qed.
Lemma lap_untagged : overlapping yes yes noupper same zero (sources [s_untagged]) (sources_env [s_untagged]) (TNamed 0) (JInt 3).
Proof.
  eapply lap; [vm_compute; reflexivity|schema| | |].
  - eapply em_untagged with (n := u "Feet") (v := vrt [] "Feet" (FUnnamed [pos_fld [] i32])); [a_variant|]. eapply ep_newtype; [reflexivity|an_int].
  - eapply vm_oneof; [now left|int_ok].
  - both.
Qed.
Lemma lap_adjacent : overlapping yes yes noupper same zero (sources [s_adjacent]) (sources_env [s_adjacent]) (TNamed 0)
  (JObj [(u "t", JStr (u "Feet")); (u "c", JInt 3)]).
Proof.
  eapply lap; [vm_compute; reflexivity|schema| | |].
  - eapply em_adjacent with (v := vrt [] "Feet" (FUnnamed [pos_fld [] i32])); [a_variant|]. eapply ep_newtype; [reflexivity|an_int].
  - apply vm_object; [intros k Hk; cbn in *; tauto| |discriminate]. intros k j r [[= <- <-]|[[= <- <-]|[] ] ] Hg; vm_compute in Hg; injection Hg as <-.
    + apply va_inline, vm_string. intros vs [= <-]. cbn. tauto.
    + apply va_inline. eapply vm_oneof; [now left|int_ok].
  - eapply rm_property with (k := u "c"); [right; now left|vm_compute; reflexivity|]. apply rj_inline. both.
Qed.
Lemma s_external_rep : represents yes yes (di_attrs (sources [s_external] 0)) RepExternal.
Proof. apply rep_said_ok. vm_compute. reflexivity. Qed.
Lemma s_untagged_rep : represents yes yes (di_attrs (sources [s_untagged] 0)) RepUntagged.
Proof. apply rep_said_ok. vm_compute. reflexivity. Qed.
Lemma s_adjacent_rep : represents yes yes (di_attrs (sources [s_adjacent] 0)) (RepAdjacent (u "t") (u "c")).
Proof. apply rep_said_ok. vm_compute. reflexivity. Qed.
