(** Properties C74, C75: the compile errors of the derive. *)
From Verif Require Import AttrSpec DeriveSpec DeriveExamples PanicSpec DiagSpec DiagDeclFacts DiagExamples.
From Coq Require Import Sorting.Sorted.
Local Open Scope string_scope. Local Open Scope list_scope.

(** ** C74: the errors shown are the complaints there are *)

(** [complains] (DiagSpec.v) says what there is to complain about, where, and in which words *)
Theorem C74_errors_exact : forall pe pp uni ev debug i l,
  derive_shows pe pp uni ev debug i = Errors l -> forall d, In d l <-> complains pe pp debug i d.
Proof. exact shows_in. Qed.
Print Assumptions C74_errors_exact.

(** in the order of the source, and nothing twice *)
Theorem C74_errors_in_order : forall pe pp uni ev debug i l,
  derive_shows pe pp uni ev debug i = Errors l -> StronglySorted comes_before l /\ NoDup l.
Proof. exact shows_sorted. Qed.
Print Assumptions C74_errors_in_order.

(** errors are shown exactly if there is a complaint and renaming does not panic *)
Theorem C74_errors_when : forall pe pp uni ev debug i,
  (exists l, derive_shows pe pp uni ev debug i = Errors l) <-> (exists d, complains pe pp debug i d) /\ ~ misnamed pe pp i.
Proof. exact shows_when. Qed.
Print Assumptions C74_errors_when.

(** the context that collects errors is checked on every way out: its destructor never panics, least of all while unwinding *)
Theorem C74_never_aborts : forall pe pp uni ev debug i, derive_shows pe pp uni ev debug i <> Aborts.
Proof. exact shows_never_aborts. Qed.
Print Assumptions C74_never_aborts.

(** apart from the errors, what is shown is what Derive.v computes *)
Theorem C74_same_outcome : forall pe pp uni ev debug i,
  match derive pe pp uni ev i with
  | DOk t => derive_shows pe pp uni ev debug i = Written t
  | DErr es => exists l, derive_shows pe pp uni ev debug i = Errors l /\ length l = length es
  | DPanic => derive_shows pe pp uni ev debug i = Panics
  end.
Proof. exact shows_same. Qed.
Print Assumptions C74_same_outcome.

(** nine errors of all kinds, at the container, two variants and two fields *)
Example C74_case : derive_shows yes yes noupper same quoted i_bad = Errors bad_errors /\ length bad_errors = 9.
Proof. split; [exact bad_shows|reflexivity]. Qed.
(** the reported order is not just the order of the places: a second type comes after the rest of its owner *)
Example C74_case_order : comes_before (own (AtPart OContainer 2 0 (PaNested 2)) (u "duplicate opg attribute `rename`"))
  (own (AtPart OContainer 0 2 PaPath) (u "duplicate opg attribute")).
Proof.
  exists [0; 0; 0; 2; 0], [0; 0; 1; 0; 0]. split; [|split].
  - apply (rk_part _ OContainer 2 0 (PaNested 2)); [reflexivity|]. intros E. vm_compute in E. discriminate.
  - exact (rk_type (own (AtPart OContainer 0 2 PaPath) (u "duplicate opg attribute")) OContainer 0 2 PaPath eq_refl eq_refl).
  - apply lex_tail, lex_tail, lex_head. repeat constructor.
Qed.

(** ** C75: no problem hides another, and each is named once *)

(** An attribute list of the declaration, whatever the discriminants are, with something to complain about: it is not
    always shown. *)
Theorem C75_all_shown_refuted : forall pe pp uni ev debug, exists i pos l d l',
  attrs_at i pos l /\ complaint pe pp debug (OVariant 1) pos l d /\ derive_shows pe pp uni ev debug i = Errors l' /\ ~ In d l'.
Proof.
  intros. exists i_mixed, PVariant, [opg_attr [word_item "nothing"]], (own (AtPart (OVariant 1) 0 0 PaPath) (u "unknown attribute")),
    [own AtVariants (u "varant discriminants are not consistent")]. split; [|split; [|split]].
  - eapply (aa_variant i_mixed _ (vrt [opg_attr [word_item "nothing"]] "B" FUnit)); [reflexivity|right; now left].
  - eapply co_item; [exists (opg_attr [word_item "nothing"]), [word_item "nothing"]; repeat split; now constructor|].
    apply wr_word. constructor. cbn. intros w Hw. repeat (destruct Hw as [<-|Hw]; [discriminate|]). destruct Hw.
  - reflexivity.
  - intros [H|[]]. discriminate.
Qed.
Print Assumptions C75_all_shown_refuted.
(** nor if renaming panics *)
Theorem C75_all_shown_refuted_by_panic : forall pe pp uni ev debug, exists i d,
  complains pe pp debug i d /\ derive_shows pe pp uni ev debug i = Panics.
Proof.
  intros. exists i_dash, (own (AtPart (OField None 0) 0 0 PaPath) (u "unknown attribute")). split; [|reflexivity].
  eapply cs_attrs; [eapply (la_field i_dash _ 0); reflexivity|].
  eapply co_item; [exists (opg_attr [word_item "nothing"]), [word_item "nothing"]; repeat split; now constructor|].
  apply wr_word. constructor. cbn. intros w Hw. repeat (destruct Hw as [<-|Hw]; [discriminate|]). destruct Hw.
Qed.
Print Assumptions C75_all_shown_refuted_by_panic.
(** otherwise all are shown at once *)
Theorem C75_all_shown_partial : forall pe pp uni ev debug i o pos l d, ~ misnamed pe pp i ->
  looked_at i o pos l -> complaint pe pp debug o pos l d -> exists l', derive_shows pe pp uni ev debug i = Errors l' /\ In d l'.
Proof. exact shows_all. Qed.
Print Assumptions C75_all_shown_partial.
Example C75_case : ~ misnamed yes yes i_bad /\ looked_at i_bad (OField (Some 1) 0) PField [opg_attr [described "text"; word_item "integer"; described "other"; word_item "string"]] /\
  complaint yes yes quoted (OField (Some 1) 0) PField [opg_attr [described "text"; word_item "integer"; described "other"; word_item "string"]]
    (own (AtPart (OField (Some 1) 0) 0 3 PaPath) (u "duplicate opg attribute")).
Proof.
  split; [apply (shows_when yes yes noupper same quoted); eexists; exact bad_shows|]. split.
  - refine (la_variant_field i_bad _ 1 _ 0 (fld _ "x" i32) eq_refl _ eq_refl eq_refl). intros (v & w & d & Hv & Hw & H1 & H2).
    cbn in Hv. destruct Hv as [<-|[<-|[]]]; discriminate.
  - apply co_types with (a1 := 0) (i1 := 1).
    + exists FromOpg, (word_item "integer"), (SType ETInteger). split; [|split; [constructor|reflexivity]].
      do 2 eexists. repeat split; now constructor.
    + exists FromOpg, (word_item "string"), (SType ETString). split; [|split; [constructor|reflexivity]].
      do 2 eexists. repeat split; now constructor.
    + right. split; [reflexivity|]. repeat constructor.
    + intros a2 i2 (f & n & x & (at' & items & Hn & Hb & Hm & Hi) & Hs & Hk) He.
      destruct a2 as [|[|a2]]; cbn in Hn; try discriminate. injection Hn as <-. cbn in Hm. injection Hm as <-. inversion Hb as [H|H|H]; subst; try discriminate H.
      destruct He as [He|[_ He]]; [inversion He|].
      destruct i2 as [|[|[|i2]]]; cbn in Hi.
      * injection Hi as <-. inversion Hs; subst; discriminate Hk.
      * now split.
      * injection Hi as <-. inversion Hs; subst; discriminate Hk.
      * exfalso. repeat (apply le_S_n in He). inversion He.
Qed.

(** one problem, two errors *)
Theorem C75_named_once_refuted : forall pe pp uni ev debug, exists i l, derive_shows pe pp uni ev debug i = Errors l /\
  In (own AtIdent (u "unions are not supported")) l /\ In (own AtInput (u "union types are not supported")) l.
Proof. intros. exists i_union. eexists. split; [reflexivity|]. cbn. tauto. Qed.
Print Assumptions C75_named_once_refuted.
(** an error about [rename] where only [rename_all] is written *)
Definition no_rename (l : list attribute) : Prop := forall a i f n, item_at l a i f n -> exists items, n = list_item "rename_all" items.
Theorem C75_named_right_refuted : forall pe pp uni ev debug, exists i l, derive_shows pe pp uni ev debug i = Errors l /\
  (forall pos attrs, attrs_at i pos attrs -> no_rename attrs) /\
  In (own (AtPart OContainer 0 0 (PaNested 1)) (u "duplicate opg attribute `rename`")) l.
Proof.
  intros. exists (item [serde_attr [list_item "rename_all" [str_value "serialize" "lowercase"; str_value "serialize" "UPPERCASE"]]] "R"
                    (DaStruct (FNamed []))). eexists. split; [reflexivity|]. split; [|now left].
  assert (Hc : no_rename [serde_attr [list_item "rename_all" [str_value "serialize" "lowercase"; str_value "serialize" "UPPERCASE"]]]).
  { intros a i f n (x & items & Hn & _ & Hm & Hi). destruct a as [|[|a]]; try discriminate Hn. injection Hn as <-. injection Hm as <-.
    destruct i as [|[|i]]; try discriminate Hi. injection Hi as <-. eauto. }
  intros pos attrs [|vs v Hd Hv|vs v f Hd Hv Hf|fs f Hd Hf]; [exact Hc|discriminate Hd|discriminate Hd|]. injection Hd as <-. destruct Hf.
Qed.
Print Assumptions C75_named_right_refuted.
(** any other error about a repeated attribute stands at a second item that says something about the named attribute *)
Theorem C75_named_right_partial : forall pe pp uni ev debug i l o a j p k,
  derive_shows pe pp uni ev debug i = Errors l -> k <> KType ->
  In (own (AtPart o a j p) (in_quotes "duplicate opg attribute " (u (key_name k)))) l -> p = PaPath \/ p = PaItem ->
  exists pos attrs a1 j1, looked_at i o pos attrs /\ earlier a1 j1 a j /\ sets_at pe pp pos attrs a1 j1 k /\ sets_at pe pp pos attrs a j k.
Proof. exact shows_named. Qed.
Print Assumptions C75_named_right_partial.
