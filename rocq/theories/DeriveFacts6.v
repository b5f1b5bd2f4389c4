(** The shape of an enum's schema by representation, and inputs for which properties fail. *)
From Verif Require Import Attr AttrSpec AttrFacts Ast AstFacts Derive DeriveSpec DeriveFacts DeriveFacts2 DeriveFacts3 DeriveFacts4
  DeriveFacts5 DeriveExamples Schema SchemaSpec Gen GenSpec.

Lemma enum_shape pe pp uni ev E id i cx m cx' :
  derive pe pp uni ev i = DOk (E id) -> schema_returns E (TNamed id) cx m cx' ->
  forall vs, di_data i = DaEnum vs ->
  exists rep, represents pe pp (di_attrs i) rep /\
    ((forall v, In v vs -> unit_variant v) -> ~ said pe pp (PContainer DkEnum) (di_attrs i) SRepr ->
       kind_of m = KString /\ rep <> RepUntagged) /\
    ((forall v, In v vs -> unit_variant v) -> said pe pp (PContainer DkEnum) (di_attrs i) SRepr ->
       kind_of m = KOneOf /\ rep <> RepUntagged) /\
    (forall w, In w vs -> ~ unit_variant w ->
       match rep with
       | RepExternal => exists o m1, object_of m = Some o /\ mo_properties o = [] /\ mo_additional o = Some (Inline m1) /\
                          kind_of m1 = KOneOf
       | RepUntagged | RepInternal _ => kind_of m = KOneOf
       | RepAdjacent tag content => exists o, object_of m = Some o /\ mo_additional o = None /\
           forall k, bm_get k (mo_properties o) <> None <-> k = tag \/ k = content
       end).
Proof.
  intros Hd Hret vs Hvs.
  assert (Ha : acceptable pe pp (PContainer DkEnum) (di_attrs i)).
  { pose proof (derive_acceptable _ _ _ _ _ _ Hd _ _ (aa_container i)) as H. now rewrite Hvs in H. }
  destruct (represents_total _ _ _ Ha) as [rep Hrep]. exists rep. split; auto.
  assert (Hun : (forall v, In v vs -> unit_variant v) -> rep <> RepUntagged).
  { intros Hu ->. destruct (proj1 (derive_ok_iff pe pp uni ev i) (ex_intro _ _ Hd)) as (_ & Hx & _).
    apply Hx. eapply un_untagged_units; eauto. }
  split; [|split].
  - intros Hu Hr. split; auto.
    destruct (unit_enum_described _ _ _ _ _ _ _ _ _ _ Hd Hret _ Hvs Hu Hr) as (l & _ & Hn & _). apply Hn.
  - intros Hu Hr. split; auto.
    destruct (repr_enum_described _ _ _ _ _ _ _ _ _ _ Hd Hret _ Hvs Hu Hr) as (l & _ & Hn & _). exact Hn.
  - intros w Hw Hnu. destruct rep as [| |t|t c].
    + destruct (external_enum_described _ _ _ _ _ _ _ _ _ _ Hd Hret _ Hvs _ Hw Hnu Hrep)
        as (l & rs & o & m1 & _ & _ & H1 & H2 & _ & H3 & H4 & _). eauto 6.
    + destruct (untagged_enum_described _ _ _ _ _ _ _ _ _ _ Hd Hret _ Hvs Hrep) as (l & rs & _ & _ & H & _). exact H.
    + destruct (internal_enum_described _ _ _ _ _ _ _ _ _ _ Hd Hret _ Hvs _ _ Hw Hnu Hrep) as (l & rs & _ & _ & H & _). exact H.
    + destruct (adjacent_enum_described _ _ _ _ _ _ _ _ _ _ Hd Hret _ Hvs _ _ _ Hw Hnu Hrep)
        as (l & rs & o & m1 & m2 & _ & _ & H1 & _ & H2 & H3 & _).
      exists o. split; auto. split; auto. intros k. rewrite H3, last_value_In. cbn. intuition.
Qed.

(** *** Inputs that make the derive panic *)
Definition i_untagged_unit : derive_input ty :=
  item [serde_attr [word_item "untagged"]] "E" (DaEnum [vrt [] "A" FUnit; vrt [] "B" (FUnnamed [pos_fld [] i32])]).
Definition i_adjacent_unit : derive_input ty :=
  item [serde_attr [str_value "tag" "t"; str_value "content" "c"]] "E"
    (DaEnum [vrt [] "A" FUnit; vrt [] "B" (FUnnamed [pos_fld [] i32])]).
Definition i_internal_tuple : derive_input ty :=
  item [serde_attr [str_value "tag" "t"]] "E" (DaEnum [vrt [] "A" (FUnnamed [pos_fld [] i32; pos_fld [] i32])]).
Definition i_newtype_any : derive_input ty :=
  item [opg_attr [word_item "any"]] "N" (DaStruct (FUnnamed [pos_fld [] i32])).
Definition i_camel : derive_input ty :=
  item [serde_attr [str_value "rename_all" "camelCase"]] "S" (DaStruct (FNamed [fld [] "__" i32])).

Lemma panics pe pp uni ev : forall i, In i [i_untagged_unit; i_adjacent_unit; i_internal_tuple; i_newtype_any; i_camel] ->
  derive pe pp uni ev i = DPanic.
Proof. intros i H. repeat (destruct H as [<-|H]; [reflexivity|]). destruct H. Qed.

Lemma i_untagged_unit_undescribed : attributes_acceptable yes yes i_untagged_unit /\ ~ unsupported yes yes i_untagged_unit /\
  undescribed yes yes i_untagged_unit.
Proof.
  destruct (derive_panic_odd yes yes noupper same i_untagged_unit eq_refl) as [H|H]; auto. exfalso.
  inversion H as [vs v H1 H2 H3|vs v k f H1 H2 H3 H4|]; [| |discriminate].
  - injection H1 as <-. destruct H2 as [<-|[<-|[]]]; apply H3; eexists _, _; split; reflexivity.
  - injection H1 as <-. destruct H2 as [<-|[<-|[]]]; destruct k as [|[|k]]; try discriminate.
    cbn in H3. injection H3 as <-. apply H4. exists [], 48%N, []. repeat split; [constructor|discriminate].
Qed.

(** an unsupported shape that panics instead of being reported: untagged unit variants, one of which cannot be
    put in camelCase *)
Definition i_odd_untagged : derive_input ty :=
  item [serde_attr [word_item "untagged"; str_value "rename_all" "camelCase"]] "E" (DaEnum [Build_variant_syn [] [233%N] FUnit None]).
Lemma odd_untagged pe pp uni ev : unsupported pe pp i_odd_untagged /\ derive pe pp uni ev i_odd_untagged = DPanic.
Proof.
  split; [|reflexivity]. eapply un_untagged_units; [reflexivity| |].
  - intros v [<-|[]]. reflexivity.
  - apply rep_untagged; try intros ?; decide_said.
Qed.

(** *** Skipped members that show *)

(** enum E { A, #[serde(skip)] B(i32) } and the same without B *)
Definition i_skipped_payload : derive_input ty :=
  item [] "E" (DaEnum [vrt [] "A" FUnit; vrt [serde_attr [word_item "skip"]] "B" (FUnnamed [pos_fld [] i32])]).
Definition i_no_payload : derive_input ty := item [] "E" (DaEnum [vrt [] "A" FUnit]).
Lemma skipped_payload pe pp uni ev : exists td1 td2,
  derive pe pp uni ev i_skipped_payload = DOk td1 /\ derive pe pp uni ev i_no_payload = DOk td2 /\ td1 <> td2.
Proof. eexists _, _. split; [reflexivity|]. split; [reflexivity|]. discriminate. Qed.

(** *** A field with the name of the tag *)
Definition i_tag_clash : derive_input ty :=
  item [serde_attr [str_value "tag" "kind"]] "E" (DaEnum [vrt [] "A" (FNamed [fld [] "kind" i32])]).
Definition td_tag_clash : typedef := Eval vm_compute in derived i_tag_clash.
Definition m_tag_clash : model := Eval vm_compute in first_of (get_schema (fun _ => td_tag_clash) 10 (TNamed 0) cx_new).
Lemma d_tag_clash : ex_derive i_tag_clash = DOk td_tag_clash.
Proof. vm_compute. reflexivity. Qed.
Lemma r_tag_clash : schema_returns (fun _ => td_tag_clash) (TNamed 0) cx_new m_tag_clash cx_new.
Proof. exists 10. vm_compute. reflexivity. Qed.
