(** Facts about the impls for the types of the standard library, chrono and uuid. *)
From Verif Require Import Attr Ast Derive Schema SchemaSpec Gen GenSpec GenFacts GenFacts3 GenFacts4 DeriveSpec SoundSpec.
From Coq Require Import ZArith Lia.
Local Open Scope string_scope. Local Open Scope list_scope.

(** the width of an integer type depends on the machine *)
Definition machine_sized (p : prim) : Prop := In p [PIsize; PUsize; PAtomicIsize; PAtomicUsize].

Section Facts.
  Variable E : env.

  Lemma prim_returns p cx m cx' : schema_returns E (TPrim p) cx m cx' -> m = prim_schema p /\ cx' = cx.
  Proof. intros H. apply returns_step in H as [f H]. cbn in H. injection H as <- <-. auto. Qed.

  Lemma integer_described p signed bits cx m cx' : int_type p = Some (signed, bits) -> schema_returns E (TPrim p) cx m cx' ->
    kind_of m = KInteger /\ nullable_of m = Some false /\ m_description m = None /\ example_of m = None /\ cx' = cx /\
    (machine_sized p -> format_of m = None) /\
    (~ machine_sized p -> format_of m = Some ((if signed then u "int" else u "uint") ++ nat_to_string (Z.to_nat bits))).
  Proof.
    intros Hp H. apply prim_returns in H as [-> ->].
    destruct p; try discriminate; injection Hp as <- <-; repeat split; intros H; try reflexivity;
      try (exfalso; cbv in H; intuition discriminate); try (exfalso; apply H; cbv; tauto).
  Qed.

  Lemma other_described p cx m cx' : int_type p = None -> schema_returns E (TPrim p) cx m cx' ->
    cx' = cx /\ enum_of m = None /\
    (nullable_of m = Some true <-> p = PUnit) /\ nullable_of m <> None /\
    match p with
    | PBool | PAtomicBool => kind_of m = KBoolean
    | PF32 => kind_of m = KNumber /\ format_of m = Some (u "float")
    | PF64 => kind_of m = KNumber /\ format_of m = Some (u "double")
    | PStr | PString => kind_of m = KString /\ format_of m = None
    | PChar => kind_of m = KString /\ format_of m = Some (u "char")
    | PUnit => kind_of m = KString /\ format_of m = Some (u "null")
    | PUuid => kind_of m = KString /\ format_of m = Some (u "uuid")
    | _ => kind_of m = KString /\ format_of m = Some (u "date")
    end.
  Proof.
    intros Hp H. apply prim_returns in H as [-> ->]. split; [reflexivity|].
    destruct p; try discriminate; cbn; repeat split; intros; try reflexivity; try discriminate.
  Qed.

  Lemma date_formats cx m1 m2 m3 cx1 cx2 cx3 : schema_returns E (TPrim PDateTime) cx m1 cx1 ->
    schema_returns E (TPrim PNaiveDateTime) cx m2 cx2 -> schema_returns E (TPrim PNaiveDate) cx m3 cx3 ->
    format_of m1 = format_of m3 /\ format_of m2 = format_of m3.
  Proof. intros H1 H2 H3. apply prim_returns in H1 as [-> _], H2 as [-> _], H3 as [-> _]. split; reflexivity. Qed.

  (** ** Collections *)
  Lemma seq_returns k t cx m cx' : schema_returns E (TSeq k t) cx m cx' <->
    exists r, mention_returns E t false params_default cx r cx' /\ m = Model None (Single (MType false (TdArray r))).
  Proof.
    split.
    - intros H. apply returns_step in H as [f H]. cbn in H. binds. eexists. split; [exists f; unfold mention; eassumption|reflexivity].
    - intros (r & [f Hr] & ->). exists (S f). cbn. unfold mention in Hr. rewrite Hr. reflexivity.
  Qed.
  Lemma dict_returns k t cx m cx' : schema_returns E (TDict k t) cx m cx' <->
    exists r, mention_returns E t false params_default cx r cx' /\ m = Model None (Single (MType false (TdObject (MObject [] (Some r) [])))).
  Proof.
    split.
    - intros H. apply returns_step in H as [f H]. cbn in H. binds. eexists. split; [exists f; unfold mention; eassumption|reflexivity].
    - intros (r & [f Hr] & ->). exists (S f). cbn. unfold mention in Hr. rewrite Hr. reflexivity.
  Qed.

  Notation elements := (in_order (fun t cx r cx' => mention_returns E t false params_default cx r cx')).
  Lemma vec_returns ts : forall cx rs cx',
    (exists f, eval_vec (fun t => mention_schema E (get_schema E f) t false params_default) ts cx = Ok (rs, cx')) <-> elements ts cx rs cx'.
  Proof.
    induction ts as [|t ts IH]; intros cx rs cx'; split.
    - intros [f H]. cbn in H. injection H as <- <-. constructor.
    - intros H. inversion H; subst. exists 0. reflexivity.
    - intros [f H]. cbn in H. binds. econstructor; [exists f; unfold mention; eassumption|]. apply IH. eauto.
    - intros H. inversion H as [|? ? ? r cx1 rs' ? [f1 Hr] Hrs]; subst. apply IH in Hrs as [f2 Hrs].
      exists (f1 + f2). cbn. unfold mention in Hr.
      assert (Hr' : mention_schema E (get_schema E (f1 + f2)) t false params_default cx = Ok (r, cx1)).
      { change (mention E (f1 + f2) t false params_default cx = Ok (r, cx1)). eapply mention_le; [|exact Hr]. lia. }
      rewrite Hr'. cbn.
      assert (Hrs2 : eval_vec (fun t0 => mention_schema E (get_schema E (f1 + f2)) t0 false params_default) ts cx1 = Ok (rs', cx')).
      { eapply eval_vec_below; [|exact Hrs]. apply Forall_forall. intros x _ c res Hx. change (mention E (f1 + f2) x false params_default c = Ok res).
        eapply mention_le; [|exact Hx]. lia. }
      rewrite Hrs2. reflexivity.
  Qed.
  Lemma tuple_returns ts cx m cx' : schema_returns E (TTuple ts) cx m cx' <->
    exists rs, elements ts cx rs cx' /\ m = Model None (Single (MType false (TdArray (Inline (Model None (OneOf rs)))))).
  Proof.
    split.
    - intros H. apply returns_step in H as [f H]. cbn in H. binds. eexists. split; [|reflexivity]. apply vec_returns. eauto.
    - intros (rs & Hrs & ->). apply vec_returns in Hrs as [f Hrs]. exists (S f). cbn. rewrite Hrs. reflexivity.
  Qed.
End Facts.
