(** Concrete types for the theorems of PropReads.v: a checker for [exact_inside], the types it accepts, and JSON that
    a schema accepts although serde cannot read it. *)
From Verif Require Import Attr AttrSpec AttrFacts Ast Derive DeriveSpec Schema SchemaSpec Gen GenSpec GenFacts GenFacts4 DeriveFacts5 DeriveExamples.
From Verif Require Import Doc Ser Api ApiSpec ApiFacts ApiFacts2 ApiFacts8 Conformance ApiExamples.
From Verif Require Import SoundSpec SoundFacts4 SoundFacts5 SoundCheck SoundExamples ReadsSpec ReadsFacts2.
From Coq Require Import Arith Lia ZArith.
Local Open Scope string_scope. Local Open Scope list_scope.

Section Check.
  Variable pe pp : str -> bool.
  Variable D : tid -> derive_input ty.
  Notation said := (said pe pp).
  Notation saids := (saids pe pp).

  Fixpoint missingb (t : ty) : bool :=
    match t with TOption _ => true | TWrap WTuple1 _ => false | TWrap _ t' => missingb t' | _ => false end.
  Lemma missingb_ok t : missingb t = true -> may_be_missing t.
  Proof. induction t; cbn; auto; try discriminate. destruct w; auto. discriminate. Qed.
  Definition defaultb (fn : attr_from * nested) : bool :=
    match fn with
    | (FromSerde, NMeta (MPath p)) | (FromSerde, NMeta (MNameValue p (LStr _))) => is_ident (u "default") p
    | _ => false
    end.
  Definition defaultedb (f : field_syn ty) : bool :=
    match items_written (fs_attrs f) with Some its => existsb defaultb its | None => false end.
  Lemma defaultedb_ok f : defaultedb f = true -> defaulted f.
  Proof.
    unfold defaultedb. destruct (items_written _) as [its|] eqn:Ei; [|discriminate]. intros H. apply existsb_exists in H as ([fr n] & Hin & H).
    exists its, n. split; [now apply items_written_ok|]. destruct fr; try discriminate. split; [exact Hin|].
    destruct n as [l|[p|p l|p l] ]; try discriminate.
    - left. apply is_ident_iff in H. subst p. reflexivity.
    - right. destruct l; try discriminate. apply is_ident_iff in H. subst p. eexists. reflexivity.
  Qed.
  Fixpoint nullishb (fuel : nat) (t : ty) : bool :=
    match fuel with
    | O => false
    | Datatypes.S fuel' =>
        match t with
        | TOption _ => true
        | TWrap WTuple1 _ => false
        | TWrap _ t' => nullishb fuel' t'
        | TNamed id => match di_data (D id) with DaStruct (FUnnamed [f]) => nullishb fuel' (fs_ty f) | _ => false end
        | _ => false
        end
    end.
  Lemma nullishb_ok fuel : forall t, nullishb fuel t = true -> nullish D t.
  Proof.
    induction fuel as [|fuel IH]; [discriminate|]. intros t H. cbn in H. destruct t; try discriminate.
    - destruct w; try discriminate; apply nu_wrap; auto; discriminate.
    - apply nu_option.
    - destruct (di_data (D id)) as [|[| [|f [|] ]|]|] eqn:Ed; try discriminate. eapply nu_newtype; eauto.
  Qed.
  Definition sel_optional x := match x with SSkipIf | SOptional => Some tt | _ => None end.
  Definition sel_nullable x := match x with SNullable => Some tt | _ => None end.
  Definition none {X} (l : list X) : bool := match l with [] => true | _ => false end.
  Lemma none_ok {X} (sel : Attr.setting -> option X) pos l xs x y : saids pos l = Some xs -> none (pick sel xs) = true -> sel x = Some y -> ~ said pos l x.
  Proof. intros Hs Hn Hx H. apply (saids_iff _ _ _ _ _ _ Hs) in H. destruct (pick sel xs) eqn:Ep; [|discriminate]. eapply pick_nil; eauto. Qed.
  Definition fieldb (f : field_syn ty) : bool :=
    match saids PField (fs_attrs f) with
    | Some xs => none (pick sel_type xs) && (none (pick sel_optional xs) || missingb (fs_ty f) || defaultedb f) &&
        (none (pick sel_nullable xs) || nullishb 20 (fs_ty f))
    | None => false
    end.
  Lemma fieldb_ok f : fieldb f = true -> field_exact pe pp D f.
  Proof.
    unfold fieldb. destruct (saids _ _) as [xs|] eqn:Es; [|discriminate]. intros H. apply andb_prop in H as [H H3]. apply andb_prop in H as [H1 H2]. split; [|split].
    - intros t. eapply none_ok; eauto. reflexivity.
    - intros Ho. apply orb_prop in H2 as [H2|H2]; [apply orb_prop in H2 as [H2|H2]|].
      + exfalso. destruct Ho as [Ho|Ho]; revert Ho; eapply none_ok; eauto; reflexivity.
      + left. now apply missingb_ok.
      + right. now apply defaultedb_ok.
    - intros Ho. apply orb_prop in H3 as [H3|H3]; [|now eapply nullishb_ok; eauto].
      exfalso. revert Ho. eapply none_ok; eauto; reflexivity.
  Qed.
  Definition fieldsb (fs : list (field_syn ty)) : bool := forallb (fun f => skippedb pe pp f || fieldb f) fs.
  Lemma fieldsb_ok fs : fieldsb fs = true -> fields_exact pe pp D fs.
  Proof.
    intros H f Hf Hs. unfold fieldsb in H. rewrite forallb_forall in H. specialize (H _ Hf). apply orb_prop in H as [H|H]; [|now apply fieldb_ok].
    now apply skippedb_ok in H.
  Qed.
  Definition vexactb (v : variant_syn ty) : bool :=
    match vs_fields v with FUnit => true | FUnnamed [f] => fieldb f | FUnnamed _ => false | FNamed fs => fieldsb fs end.
  Lemma vexactb_ok v : vexactb v = true -> variant_exact pe pp D v.
  Proof.
    unfold vexactb, variant_exact. destruct (vs_fields v) as [fs|[|f [|] ]|]; auto; try discriminate; [apply fieldsb_ok|apply fieldb_ok].
  Qed.
  Definition iexactb (i : derive_input ty) : bool :=
    match di_data i with
    | DaStruct (FNamed fs) =>
        match saids (PContainer DkNamed) (di_attrs i) with Some xs => none (pick sel_nullable xs) && fieldsb fs | None => false end
    | DaStruct (FUnnamed [f]) =>
        match saids (PContainer DkOther) (di_attrs i) with Some xs => none (pick sel_type xs) && fieldb f | None => false end
    | DaEnum vs =>
        match saids (PContainer DkEnum) (di_attrs i), rep_said pe pp (di_attrs i) with
        | Some xs, Some rep =>
            if forallb unitb vs then negb (has SRepr xs)
            else match rep with RepUntagged | RepInternal _ => forallb vexactb vs | _ => false end
        | _, _ => false
        end
    | _ => false
    end.
  Lemma iexactb_ok i : iexactb i = true -> input_exact pe pp D i.
  Proof.
    unfold iexactb, input_exact. destruct (di_data i) as [vs|[fs|[|f [|] ]|]|]; try discriminate.
    - destruct (saids _ _) as [xs|] eqn:Es; [|discriminate]. destruct (rep_said _ _ _) as [rep|] eqn:Er; [|discriminate]. apply rep_said_ok in Er.
      destruct (forallb unitb vs) eqn:Eu; intros H.
      + rewrite forallb_forall in Eu. split; [|left; intros v Hv; apply unitb_ok; auto].
        intros [Hr _]. apply (has_said _ _ _ _ _ SRepr ltac:(cbn; tauto) Es) in Hr. now rewrite Hr in H.
      + split; [|right; split].
        * intros [_ Hu]. assert (forallb unitb vs = true); [|congruence]. apply forallb_forall. intros v Hv. apply unitb_ok. auto.
        * destruct rep; try discriminate; eauto.
        * intros v Hv _. destruct rep; try discriminate; rewrite forallb_forall in H; now apply vexactb_ok, H.
    - destruct (saids _ _) as [xs|] eqn:Es; [|discriminate]. intros H. apply andb_prop in H as [H1 H2]. split; [|now apply fieldsb_ok].
      eapply none_ok; eauto. reflexivity.
    - destruct (saids _ _) as [xs|] eqn:Es; [|discriminate]. intros H. apply andb_prop in H as [H1 H2]. split; [|now apply fieldb_ok].
      intros t. eapply none_ok; eauto. reflexivity.
  Qed.
  Definition texactb (t : ty) : bool :=
    match t with TPrim PUnit | TTuple _ | TSeq (KArray _) _ | TWrap WTuple1 _ => false | TNamed id => iexactb (D id) | _ => true end.
  Lemma texactb_ok t : texactb t = true -> exact pe pp D t.
  Proof.
    destruct t; cbn; auto; try discriminate.
    - destruct p; auto; discriminate.
    - destruct w; auto; discriminate.
    - destruct k; auto; discriminate.
    - apply iexactb_ok.
  Qed.
  Fixpoint exactb (fuel : nat) (t : ty) : bool :=
    match fuel with O => false | Datatypes.S fuel' => texactb t && forallb (exactb fuel') (children pe pp D t) end.
  Lemma exactb_ok fuel t : exactb fuel t = true -> exact_inside pe pp D t.
  Proof.
    intros H t' Hi. assert (exists fuel', exactb fuel' t' = true) as [[|f] Hf].
    { induction Hi as [|t1 t2 _ [f1 IH] Hd]; [eauto|]. destruct f1 as [|f1]; [discriminate|]. cbn in IH. apply andb_prop in IH as [_ IH].
      rewrite forallb_forall in IH. exists f1. now apply IH, children_ok. }
    - discriminate.
    - cbn in Hf. apply andb_prop in Hf as [Hf _]. now apply texactb_ok.
  Qed.
End Check.

(** ** The types of the repository's tests whose schemas accept nothing but what can be read *)
Definition test_exact : list tid := [0; 1; 3; 9; 10; 14; 15; 16; 19; 20; 21].
Lemma test_exact_ok id : In id test_exact -> exact_inside yes yes test_source (TNamed id).
Proof.
  intros H. apply (exactb_ok yes yes test_source 20).
  assert (Ha : forallb (fun id => exactb yes yes test_source 20 (TNamed id)) test_exact = true) by (vm_compute; reflexivity).
  rewrite forallb_forall in Ha. now apply Ha.
Qed.

(** ** Enums *)
(** struct Ratio { #[serde(default)] #[opg(optional)] a: i32, #[serde(rename = "B")] b: Option<Vec<f64>> } *)
Definition ratio : derive_input ty :=
  item [] "Ratio" (DaStruct (FNamed
    [fld [serde_attr [word_item "default"]; opg_attr [word_item "optional"]] "a" i32;
     fld [serde_attr [str_value "rename" "B"]] "b" (TOption (TSeq KVec (TPrim PF64)))])).
(** #[serde(tag = "kind")] enum Step { Stop, Move { to: Vec<Ratio> }, Jump(Ratio), Choose { one: Either } } *)
Definition step : derive_input ty :=
  item [serde_attr [str_value "tag" "kind"]] "Step" (DaEnum
    [vrt [] "Stop" FUnit; vrt [] "Move" (FNamed [fld [] "to" (TSeq KVec (TNamed 0))]); vrt [] "Jump" (FUnnamed [pos_fld [] (TNamed 0)]);
     vrt [] "Choose" (FNamed [fld [] "one" (TNamed 1)])]).
Definition read_items : list (derive_input ty) := [ratio; i_untagged; step].
Definition read_source := sources read_items.
Definition read_env := sources_env read_items.
Definition read_calls : list mention_call := [named_call 2].
Definition read_cx : components := Eval vm_compute in
  match mention_all read_env 20 read_calls cx_new with Ok cx => cx | Fuel => cx_new end.
Lemma read_return : mentions_return read_env read_calls cx_new read_cx.
Proof. exists 20. vm_compute. reflexivity. Qed.
Definition read_sites : list site := Eval vm_compute in
  (call_sites read_calls ++ flat_map (fun id => sites_of read_env (TNamed id)) [0; 1; 2] ++
   flat_map (fun t => sites_of read_env t) [TSeq KVec (TNamed 0); TOption (TSeq KVec (TPrim PF64)); TSeq KVec (TPrim PF64)]).
Lemma read_visited s : visited read_env (call_sites read_calls) s -> In s read_sites.
Proof. apply visited_in_list; vm_compute; reflexivity. Qed.
Lemma read_unambiguous : names_unambiguous read_env (call_sites read_calls).
Proof. apply (names_checked _ _ read_sites read_visited). vm_compute. reflexivity. Qed.
Lemma read_derived t : derived_inside yes yes noupper read_source DeriveExamples.same read_env t.
Proof. apply sources_derived. vm_compute. reflexivity. Qed.
Lemma read_supported : supported_inside yes yes read_source False (TNamed 2).
Proof.
  apply (deepb_ok yes yes noupper DeriveExamples.same read_source read_env (fun _ => true)) with (fuel := 20); [|vm_compute; reflexivity].
  intros id _. apply (read_derived (TNamed id)). constructor.
Qed.
Lemma read_exact : exact_inside yes yes read_source (TNamed 2).
Proof. apply (exactb_ok _ _ _ 20). vm_compute. reflexivity. Qed.
(** Jump(Ratio { a: default, b: Some([1.5]) }), with a member that is not known *)
Definition read_json (x : Z) : json := JObj [(u "B", JArr [JInt x]); (u "kind", JStr (u "Jump")); (u "other", JNull)].
Lemma read_distinct x : distinct_names (read_json x).
Proof.
  constructor.
  - repeat constructor; cbn; intuition discriminate.
  - intros k j [[= <- <-]|[[= <- <-]|[[= <- <-]|[] ] ] ]; repeat constructor. intros j [<-|[] ]. constructor.
Qed.
Lemma read_valid x : valid (cx_schemas read_cx) (Link (u "Step")) (read_json x).
Proof.
  eapply va_link; [vm_compute; reflexivity|]. eapply vm_oneof; [right; right; left; reflexivity|]. apply va_inline, vm_object.
  - intros k Hk. cbn in Hk. cbn. tauto.
  - intros k j r [[= <- <-]|[[= <- <-]|[[= <- <-]|[] ] ] ] Hg; vm_compute in Hg; try discriminate; injection Hg as <-.
    + apply va_inline, vm_array. intros j [<-|[] ]. apply va_inline, vm_number_int.
    + apply va_inline, vm_string. intros vs [= <-]. now left.
  - discriminate.
Qed.

(** ** JSON that is accepted but cannot be read *)
Lemma over disc l t j m S : forallb (fun i => match ex_derive i with DOk _ => true | _ => false end) (i_secret :: l) = true ->
  schema_at l t = Some (m, S) -> distinct_names j -> valid_model S m j -> ~ reads yes yes noupper disc (sources l) t j ->
  overaccepted yes yes noupper DeriveExamples.same disc (sources l) (sources_env l) t j.
Proof.
  intros Hl Hs Hd Hv Hn. split; [now apply sources_derived|]. split; [exact Hd|]. split; [exact Hn|]. unfold schema_at in Hs.
  destruct (get_schema _ _ _ _) as [[m' cx]|] eqn:Eg; [|discriminate]. injection Hs as -> <-. exists m, cx. split; [now exists 20|exact Hv].
Qed.
Ltac no_names := repeat first [intros ? ? [[= <- <-]|[[= <- <-]|[] ] ] | intros ? ? [[= <- <-]|[] ] | intros ? [<-|[] ] | constructor | cbn; intuition discriminate ].

(** two representations are not said at once *)
Lemma rep_only l r1 r2 : rep_said yes yes l = Some r1 -> represents yes yes l r2 ->
  (exists xs, saids yes yes (PContainer DkEnum) l = Some xs /\ length (pick sel_tag xs) <= 1 /\ length (pick sel_content xs) <= 1) -> r2 = r1.
Proof.
  intros H1 H2 (xs & Hs & Ht & Hc). unfold rep_said in H1. rewrite Hs in H1.
  pose proof (has_said _ _ _ _ _ SUntagged ltac:(cbn; tauto) Hs) as Hh.
  assert (Htag : forall t, said yes yes (PContainer DkEnum) l (STag t) <-> In t (pick sel_tag xs)).
  { intros t. rewrite (saids_iff _ _ _ _ _ _ Hs), pick_In. split; [intros H; now exists (STag t)|]. intros (x & Hx & He). destruct x; try discriminate. now injection He as ->. }
  assert (Hcon : forall t, said yes yes (PContainer DkEnum) l (SContent t) <-> In t (pick sel_content xs)).
  { intros t. rewrite (saids_iff _ _ _ _ _ _ Hs), pick_In. split; [intros H; now exists (SContent t)|]. intros (x & Hx & He). destruct x; try discriminate. now injection He as ->. }
  destruct (pick sel_tag xs) as [|t [|] ]; cbn in Ht; try lia; destruct (pick sel_content xs) as [|c [|] ]; cbn in Hc; try lia;
    destruct (has SUntagged xs); try discriminate; injection H1 as <-; inversion H2; subst;
    repeat match goal with
    | H : said _ _ _ _ (STag _) |- _ => apply Htag in H
    | H : said _ _ _ _ (SContent _) |- _ => apply Hcon in H
    | H : said _ _ _ _ SUntagged |- _ => apply Hh in H
    end; try discriminate; try tauto; try reflexivity;
    repeat match goal with
    | H : In _ [] |- _ => destruct H
    | H : In _ [_] |- _ => destruct H as [<-|[] ]
    | H : forall t, ~ said _ _ _ _ (STag t) |- _ => exfalso; eapply H; apply Htag; now left
    | H : forall t, ~ said _ _ _ _ (SContent t) |- _ => exfalso; eapply H; apply Hcon; now left
    end; try reflexivity; exfalso; match goal with H : ~ said _ _ _ _ SUntagged |- _ => apply H; now apply Hh end.
Qed.
Lemma over_unit : overaccepted yes yes noupper DeriveExamples.same zero (sources []) (sources_env []) (TPrim PUnit) (JStr (u "x")).
Proof.
  eapply over; [vm_compute; reflexivity|schema|constructor| |].
  - apply vm_string. discriminate.
  - intros H. inversion H as [p j H'| | | | | | | | | | | | | | | | | | |]; subst. inversion H' as [p s Hp| | | | |]; subst. cbn in Hp. intuition discriminate.
Qed.
Lemma over_array : overaccepted yes yes noupper DeriveExamples.same zero (sources []) (sources_env []) (TSeq (KArray 2) i32) (JArr []).
Proof.
  eapply over; [vm_compute; reflexivity|schema|constructor; intros ? []| |].
  - apply vm_array. intros ? [].
  - intros H. inversion H as [| | | | | |k t l Ha Hn| | | | | | | | | | | | |]; subst. specialize (Hn _ eq_refl). discriminate.
Qed.
Lemma over_tuple : overaccepted yes yes noupper DeriveExamples.same zero (sources []) (sources_env []) (TTuple [i32; text]) (JArr [JInt 1]).
Proof.
  eapply over; [vm_compute; reflexivity|schema|constructor; intros ? [<-|[] ]; constructor| |].
  - apply vm_array. intros ? [<-|[] ]. apply va_inline. eapply vm_oneof; [now left|]. apply va_inline, vm_integer.
  - intros H. inversion H as [| | | | |ts l Hn Ha| | | | | | | | | | | | | |]; subst. discriminate.
Qed.

(** the variants of an enum without renaming *)
Lemma variants_plain (vs : list (variant_syn ty)) : forallb (fun v => match vs_attrs v with [] => true | _ => false end) vs = true ->
  forall l, serialised_variants yes yes noupper RNone vs l -> l = map (fun v => (unraw (vs_ident v), v)) vs.
Proof.
  induction vs as [|v vs IH]; intros Ha l Hl.
  - now inversion Hl.
  - cbn in Ha. apply andb_prop in Ha as [Hv Ha]. destruct (vs_attrs v) eqn:Ev; [|discriminate].
    inversion Hl as [|? ? ? Hs Hr|? n ? ? Hs Hn Hr]; subst.
    + unfold variant_skipped in Hs. rewrite Ev in Hs. exfalso. decide_said.
    + cbn. rewrite (IH Ha _ Hr). f_equal. f_equal. destruct Hn as [Hn|Hn1 Hn2]; [rewrite Ev in Hn; exfalso; decide_said|].
      cbn in Hn2. congruence.
Qed.

Lemma plain_variant i vs rep0 rep n v : di_data i = DaEnum vs -> forallb (fun v => match vs_attrs v with [] => true | _ => false end) vs = true ->
  rule_of yes yes (PContainer DkEnum) (di_attrs i) = Some RNone -> rep_said yes yes (di_attrs i) = Some rep0 ->
  (exists xs, saids yes yes (PContainer DkEnum) (di_attrs i) = Some xs /\ length (pick sel_tag xs) <= 1 /\ length (pick sel_content xs) <= 1) ->
  enum_variant yes yes noupper i rep n v -> rep = rep0 /\ In (n, v) (map (fun v => (unraw (vs_ident v), v)) vs).
Proof.
  intros Hd Hp Hr H0 Hx (vs' & l & Hd' & _ & Hrep & (r & Hr' & Hl) & Hin). assert (vs' = vs) as -> by congruence.
  split; [eapply rep_only; eauto|]. rewrite (rule_of_ok _ _ _ _ _ _ Hr Hr') in Hl. now rewrite <- (variants_plain _ Hp _ Hl).
Qed.
Ltac is_variant H := eapply plain_variant in H;
  [|reflexivity|reflexivity|vm_compute; reflexivity|vm_compute; reflexivity|eexists; split; [reflexivity|vm_compute; lia] ];
  destruct H as [H ?]; try discriminate H.

(** enum Choice { Size(i32), Label(String) } *)
Definition choice : derive_input ty :=
  item [] "Choice" (DaEnum [vrt [] "Size" (FUnnamed [pos_fld [] i32]); vrt [] "Label" (FUnnamed [pos_fld [] text])]).
Lemma over_external : overaccepted yes yes noupper DeriveExamples.same zero (sources [choice]) (sources_env [choice]) (TNamed 0) (JObj [(u "Nothing", JInt 1)]).
Proof.
  eapply over; [vm_compute; reflexivity|schema|no_names| |].
  - apply vm_object; [intros ? []|intros ? ? ? _ Hg; discriminate Hg|]. intros k j r [[= <- <-]|[] ] _ [= <-].
    apply va_inline. eapply vm_oneof; [now left|]. apply va_inline, vm_integer.
  - intros H. inversion H; subst; try discriminate;
      match goal with Hv : enum_variant _ _ _ _ _ _ _ |- _ => rename Hv into Hvar; is_variant Hvar end.
    cbn in *. intuition discriminate.
Qed.
Lemma over_adjacent : overaccepted yes yes noupper DeriveExamples.same zero (sources [i_adjacent]) (sources_env [i_adjacent]) (TNamed 0)
  (JObj [(u "t", JStr (u "Two")); (u "c", JInt 1)]).
Proof.
  eapply over; [vm_compute; reflexivity|schema|no_names| |].
  - apply vm_object; [intros k Hk; cbn in *; tauto| |intros; discriminate].
    intros k j r [[= <- <-]|[[= <- <-]|[] ] ] Hg; vm_compute in Hg; injection Hg as <-.
    + apply va_inline, vm_string. intros vs [= <-]. cbn. tauto.
    + apply va_inline. eapply vm_oneof; [now left|]. apply va_inline, vm_integer.
  - intros H. inversion H; subst; try discriminate;
      match goal with Hv : enum_variant _ _ _ _ _ _ _ |- _ => rename Hv into Hvar; is_variant Hvar end.
    + injection Hvar as -> ->. match goal with Hn : forall j, In _ _ -> j = JNull |- _ => discriminate (Hn _ (or_intror (or_introl eq_refl))) end.
    + injection Hvar as -> ->. match goal with Hn : In (_, JStr n) _ |- _ => destruct Hn as [[= <-]|[[=]|[] ] ] end.
      match goal with Hn : In (_, j) _ |- _ => destruct Hn as [[=]|[[= <-]|[] ] ] end.
      match goal with Hn : In (_, v) _ |- _ => destruct Hn as [[=]|[[= <-]|[[=]|[] ] ] ] end.
      match goal with Hn : reads_payload _ _ _ _ _ _ _ |- _ => inversion Hn; subst; discriminate end.
Qed.
(** the discriminants of [i_level] *)
Definition level_disc (s : str) : Z := if str_eqb s (u "1") then 1%Z else 20%Z.
Lemma over_repr : overaccepted yes yes noupper DeriveExamples.same level_disc (sources [i_level]) (sources_env [i_level]) (TNamed 0) (JInt 7).
Proof.
  eapply over; [vm_compute; reflexivity|schema|no_names| |].
  - eapply vm_oneof; [now left|]. apply va_inline, vm_integer.
  - intros H. inversion H; subst; try discriminate;
      try (match goal with Hv : enum_variant _ _ _ _ _ _ _ |- _ => rename Hv into Hvar; is_variant Hvar end).
    match goal with Hv : di_data _ = DaEnum _ |- _ => injection Hv as <- end.
    match goal with Hv : In (v, _) _ |- _ => vm_compute in Hv; destruct Hv as [[=]|[[=]|[] ] ] end.
Qed.
(** struct Count { #[opg(optional)] n: i32 }, struct Maybe { #[opg(nullable)] n: i32 }, struct Some { #[opg(any)] n: i32 } *)
Definition flagged (w : String.string) : derive_input ty := item [] "Count" (DaStruct (FNamed [fld [opg_attr [word_item w]] "n" i32])).
Lemma flagged_members w rule l : In w ["optional"; "nullable"; "any"] -> serialised_fields yes yes rule 0 [fld [opg_attr [word_item w]] "n" i32] l ->
  has_rule yes yes (PContainer DkNamed) [] rule -> l = [(u "n", fld [opg_attr [word_item w]] "n" i32)].
Proof.
  intros Hw Hl Hr. assert (rule = RNone) as -> by (eapply rule_of_ok; [|exact Hr]; reflexivity).
  eapply members_ok; [|exact Hl]. destruct Hw as [<-|[<-|[<-|[] ] ] ]; vm_compute; reflexivity.
Qed.
Lemma flagged_reads w ms : In w ["optional"; "nullable"; "any"] -> reads yes yes noupper zero (sources [flagged w]) (TNamed 0) (JObj ms) ->
  exists z, In (u "n", JInt z) ms.
Proof.
  intros Hw H. inversion H; subst; try discriminate;
    try (match goal with Hv : enum_variant _ _ _ _ _ _ _ |- _ => destruct Hv as (? & ? & Hv & _); discriminate Hv end).
  match goal with Hv : di_data _ = _ |- _ => injection Hv as <- end.
  match goal with Hl : serialised_fields _ _ _ _ _ _ |- _ => apply (flagged_members _ _ _ Hw) in Hl; [subst|assumption] end.
  match goal with Hl : reads_fields _ _ _ _ _ _ _ |- _ => inversion Hl as [? ? _ Hp Hj]; subst end.
  destruct (Hp _ _ (or_introl eq_refl)) as [Hi|[Hi|Hi] ].
  - unfold keys in Hi. apply in_map_iff in Hi as ([k j] & Hk & Hin). cbn in Hk. subst k. specialize (Hj _ _ _ (or_introl eq_refl) Hin).
    inversion Hj as [p j' Hp'| | | | | | | | | | | | | | | | | | |]; subst. inversion Hp' as [p s Hx|? ? ? z| p x [?|?]|p x [?|?]|p b [?|?]|]; subst; try discriminate.
    + cbn in Hx. intuition discriminate.
    + exists z. exact Hin.
  - destruct Hi.
  - destruct Hi as (its & n & Hwr & Hin & Hn). cbn in Hwr.
    assert (its = [(FromOpg, word_item w)]) as ->.
    { eapply AttrFacts.written_fun; [exact Hwr|]. apply items_written_ok. reflexivity. }
    destruct Hin as [[=]|[] ].
Qed.
Ltac flags := first [left; reflexivity | right; flags].
Lemma over_optional : overaccepted yes yes noupper DeriveExamples.same zero (sources [flagged "optional"]) (sources_env [flagged "optional"]) (TNamed 0) (JObj []).
Proof.
  eapply over; [vm_compute; reflexivity|schema|constructor; [constructor|intros ? ? [] ]| |].
  - apply vm_object; intros; try contradiction.
  - intros H. apply flagged_reads in H; [|flags]. destruct H as [z [] ].
Qed.
Lemma over_nullable : overaccepted yes yes noupper DeriveExamples.same zero (sources [flagged "nullable"]) (sources_env [flagged "nullable"]) (TNamed 0)
  (JObj [(u "n", JNull)]).
Proof.
  eapply over; [vm_compute; reflexivity|schema|no_names| |].
  - apply vm_object; [intros k Hk; cbn in *; tauto| |discriminate]. intros k j r [[= <- <-]|[] ] Hg; vm_compute in Hg; injection Hg as <-.
    apply va_inline, vm_null.
  - intros H. apply flagged_reads in H; [|flags]. destruct H as [z [[=]|[] ] ].
Qed.
Lemma over_any : overaccepted yes yes noupper DeriveExamples.same zero (sources [flagged "any"]) (sources_env [flagged "any"]) (TNamed 0)
  (JObj [(u "n", JBool true)]).
Proof.
  eapply over; [vm_compute; reflexivity|schema|no_names| |].
  - apply vm_object; [intros k Hk; cbn in *; tauto| |discriminate]. intros k j r [[= <- <-]|[] ] Hg; vm_compute in Hg; injection Hg as <-.
    apply va_any.
  - intros H. apply flagged_reads in H; [|flags]. destruct H as [z [[=]|[] ] ].
Qed.

(** ** Facts about the cases *)
Lemma choice_unknown rep v : ~ enum_variant yes yes noupper (sources [choice] 0) rep (u "Nothing") v.
Proof.
  intros H. eapply plain_variant in H; [|reflexivity|reflexivity|vm_compute; reflexivity|vm_compute; reflexivity|eexists; split; [reflexivity|vm_compute; lia] ].
  destruct H as [_ [[=]|[[=]|[] ] ] ].
Qed.
Lemma choice_external : represents yes yes (di_attrs (sources [choice] 0)) RepExternal.
Proof. apply rep_said_ok. vm_compute. reflexivity. Qed.
Lemma two_variant : enum_variant yes yes noupper (sources [i_adjacent] 0) (RepAdjacent (u "t") (u "c")) (u "Two")
  (vrt [] "Two" (FUnnamed [pos_fld [] i32; pos_fld [] text])).
Proof. a_variant. Qed.
Lemma two_unread : ~ reads_payload yes yes noupper zero (sources [i_adjacent]) (vrt [] "Two" (FUnnamed [pos_fld [] i32; pos_fld [] text])) (JInt 1).
Proof. intros H. inversion H; subst; discriminate. Qed.
Lemma level_seven v : ~ In (v, 7%Z) (discriminants level_disc 0 [vrt_disc "Low" "1"; vrt_disc "High" "20"]).
Proof. intros H. vm_compute in H. destruct H as [[=]|[[=]|[] ] ]. Qed.
