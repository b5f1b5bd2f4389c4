(** Proofs about Attr.v. *)
From Verif Require Import Attr AttrSpec CaseSpec CaseFacts.
From Coq Require Import Permutation Arith.

Lemma is_ident_iff n p : is_ident n p = true <-> p = {| pa_colon := false; pa_segs := [n] |}.
Proof.
  unfold is_ident. destruct p as [c segs]; cbn. destruct segs as [|s [|s' segs]]; try (split; congruence).
  rewrite andb_true_iff, negb_true_iff, str_eqb_eq. split; [intros [-> ->]; auto | intros [= -> ->]; auto].
Qed.

Lemma is_ident_false n p : is_ident n p = false <-> p <> {| pa_colon := false; pa_segs := [n] |}.
Proof.
  rewrite <- is_ident_iff. destruct (is_ident n p); split; congruence.
Qed.

(** decide the first [is_ident] of the goal, replacing the path if it matches *)
Ltac ident_case :=
  match goal with
  | |- context [is_ident ?n ?p] =>
      is_var p;
      let E := fresh "E" in
      destruct (is_ident n p) eqn:E;
      [apply is_ident_iff in E; subst p | apply is_ident_false in E]
  end.

Section Facts.
  Variable pe pp : str -> bool.
  Notation says := (says pe pp).
  Notation malformed := (malformed pe pp).
  Notation item_action := (item_action pe pp).

  Lemma get_ser_iff items ss : get_ser items = Some ss <-> serialize_strings items ss.
  Proof.
    split.
    - revert ss. induction items as [|[l|m] items IH]; intros ss; cbn; try discriminate.
      + intros [= <-]. constructor.
      + destruct m as [p|p l|p its]; try discriminate. ident_case.
        * destruct l as [s|].
          -- destruct (get_ser items) as [v|]; [|discriminate]. intros [= <-]. apply ss_ser. auto.
          -- intros H. apply ss_odd. auto.
        * ident_case; [|discriminate]. intros H. apply ss_de. auto.
    - induction 1; cbn [get_ser name_value]; auto.
      change (is_ident SERIALIZE (ident "serialize")) with true. cbn iota. now rewrite IHserialize_strings.
  Qed.

  Lemma rule_iff s r : rule_from_str s = Some r <-> In (s, r) rule_spellings.
  Proof. apply rule_from_str_iff. Qed.

  (** ** An item's effect is its meaning *)

  Ltac crush_item :=
    repeat (first
      [ discriminate
      | progress (unfold with_lit_str, with_lit_simple, with_renames, set_rule, set_example_with, set_skip_if,
                    explicit_from_path; cbn beta iota)
      | ident_case
      | match goal with
        | |- context [match ?l with LStr _ => _ | LOther => _ end] => is_var l; destruct l
        | |- context [get_ser ?i] => let E := fresh "G" in destruct (get_ser i) as [[|? [|? ?]]|] eqn:E
        | |- context [rule_from_str ?s] => let E := fresh "R" in destruct (rule_from_str s) eqn:E
        | |- context [pe ?s] => let E := fresh "P" in destruct (pe s) eqn:E
        | |- context [pp ?s] => let E := fresh "P" in destruct (pp s) eqn:E
        end ]).

  Ltac finish_says :=
    intros; repeat match goal with H : Set_ _ = Set_ _ |- _ => injection H as <- end;
    repeat match goal with
      | H : get_ser _ = Some _ |- _ => apply get_ser_iff in H
      | H : rule_from_str _ = Some _ |- _ => apply rule_iff in H
      end;
    first
      [ now apply say_rename | now eapply say_rename_list
      | now eapply say_rename_all; [|eassumption]; unfold has_children, is_container; eauto
      | now eapply say_rename_all_list; [|eassumption|eassumption]; unfold has_children, is_container; eauto
      | now apply say_transparent | now apply say_untagged | now apply say_tag | now apply say_content
      | now apply say_skip; unfold skippable; auto | now apply say_skip_serializing; unfold skippable; auto
      | now eapply say_skip_if; eauto | now apply say_flatten | now apply say_description | now apply say_format
      | now apply say_example | now apply say_example_with | now apply say_inline
      | now apply say_nullable; unfold can_be_nullable, is_container; eauto | now apply say_optional
      | now apply say_string | now apply say_number | now apply say_integer | now apply say_boolean
      | now apply say_any | now apply say_repr ].

  Lemma action_says pos f n x : item_action pos f n = Set_ x -> says pos f n x.
  Proof.
    destruct pos as [k| |], f, n as [l|[p|p l|p items]];
      cbn [item_action container_item variant_item field_item opg_common serde_rename serde_rename_all];
      try discriminate; try (destruct k); crush_item; cbn [orb]; crush_item; try (finish_says; fail).
  Qed.

  Lemma says_action pos f n x : says pos f n x -> item_action pos f n = Set_ x.
  Proof.
    destruct 1;
      repeat match goal with
      | H : has_children _ |- _ => destruct H as [[? ->]| ->]
      | H : skippable _ |- _ => destruct H as [-> | ->]
      | H : can_be_nullable _ |- _ => destruct H as [[? ->]| ->]
      | H : In (_, _) rule_spellings |- _ => apply rule_iff in H
      | H : serialize_strings _ _ |- _ => apply get_ser_iff in H
      | p : position |- _ => destruct p
      end; cbn; unfold with_renames, set_rule;
      repeat match goal with H : _ = _ |- _ => rewrite H end; auto;
      try (destruct k; congruence).
  Qed.

  Lemma action_says_iff pos f n x : item_action pos f n = Set_ x <-> says pos f n x.
  Proof. split; [apply action_says | apply says_action]. Qed.

  Ltac not_ident :=
    let w := fresh "w" in let Hw := fresh "Hw" in
    intros w Hw; cbn in Hw;
    repeat (destruct Hw as [<- | Hw]; [assumption|]); destruct Hw.

  Ltac finish_malformed :=
    intros;
    repeat match goal with
      | H : get_ser _ = Some _ |- _ => apply get_ser_iff in H
      end;
    first
      [ now apply (mal_opg_value _ _ _ "format"); cbn; tauto
      | now apply (mal_opg_value _ _ _ "example"); cbn; tauto
      | now apply (mal_opg_value _ _ _ "example_with"); cbn; tauto
      | now apply mal_rename_value
      | now apply mal_rename_all_value; unfold has_children, is_container; eauto
      | now apply mal_skip_if_value
      | now apply mal_expr | now apply mal_path
      | now eapply mal_renames; eauto
      | now eapply mal_rename_alls; [|eassumption]; unfold has_children, is_container; eauto
      | now apply mal_unknown, uo_list
      | now apply mal_unknown, uo_word; not_ident
      | now apply mal_unknown, uo_key; not_ident ].

  Lemma action_malformed pos f n e : item_action pos f n = Error e -> malformed pos f n.
  Proof.
    destruct pos as [k| |], f, n as [l|[p|p l|p items]];
      cbn [item_action container_item variant_item field_item opg_common serde_rename serde_rename_all];
      try discriminate; try (destruct k); crush_item; cbn [orb]; crush_item; try (finish_malformed; fail).
  Qed.

  (** ** Malformed items are errors *)

  Lemma not_known p (l : list string) : (forall w, In w l -> p <> ident w) -> forall w, In w l -> is_ident (u w) p = false.
  Proof. intros H w Hw. apply is_ident_false. now apply H. Qed.

  Lemma malformed_action pos f n : malformed pos f n -> exists e, item_action pos f n = Error e.
  Proof.
    destruct 1 as [w Hw| |H|H|s Hs|s H Hs|items a b ss H|items a b ss Hc H|n Hu].
    - cbn in Hw. destruct pos; repeat (destruct Hw as [<- | Hw]; [eexists; reflexivity|]); destruct Hw.
    - destruct pos; eexists; reflexivity.
    - destruct H as [[? ->]| ->]; eexists; reflexivity.
    - subst; eexists; reflexivity.
    - destruct pos; cbn; rewrite Hs; eauto.
    - subst. cbn. rewrite Hs. eauto.
    - apply get_ser_iff in H. destruct pos; cbn; unfold with_renames; rewrite H; eauto.
    - apply get_ser_iff in H. destruct Hc as [[? ->]| ->]; cbn; unfold with_renames; rewrite H; eauto.
    - destruct Hu as [p Hp|p l Hp|p items].
      + pose proof (not_known _ _ Hp) as H. exists EUnknown.
        destruct pos;
          cbn [item_action container_item variant_item field_item opg_common]; unfold explicit_from_path;
          repeat (match goal with |- context [is_ident ?n p] =>
            replace (is_ident n p) with false; [cbn iota | symmetry; first
              [ apply (H "string"%string); cbn; tauto | apply (H "number"%string); cbn; tauto
              | apply (H "integer"%string); cbn; tauto | apply (H "boolean"%string); cbn; tauto
              | apply (H "any"%string); cbn; tauto | apply (H "inline"%string); cbn; tauto
              | apply (H "nullable"%string); cbn; tauto | apply (H "optional"%string); cbn; tauto ]] end); reflexivity.
      + pose proof (not_known _ _ Hp) as H. exists EUnknown.
        destruct pos;
          cbn [item_action container_item variant_item field_item opg_common];
          repeat (match goal with |- context [is_ident ?n p] =>
            replace (is_ident n p) with false; [cbn iota | symmetry; first
              [ apply (H "format"%string); cbn; tauto | apply (H "example"%string); cbn; tauto
              | apply (H "example_with"%string); cbn; tauto ]] end); reflexivity.
      + destruct pos; eexists; reflexivity.
  Qed.

  Lemma action_malformed_iff pos f n : (exists e, item_action pos f n = Error e) <-> malformed pos f n.
  Proof. split; [intros [e H]; eapply action_malformed; eauto | apply malformed_action]. Qed.

  Lemma unknown_serde_ignored pos n : unknown_serde pos n -> item_action pos FromSerde n = Ignore.
  Proof.
    destruct 1 as [l|m Hm].
    - destruct pos; reflexivity.
    - pose proof (not_known _ _ Hm) as H. clear Hm.
      destruct pos, m as [p|p l|p items];
        cbn [item_action container_item variant_item field_item serde_rename serde_rename_all meta_path] in *;
        repeat (match goal with |- context [is_ident ?n p] =>
            replace (is_ident n p) with false; [cbn [orb]; cbn iota | symmetry; first
              [ apply (H "rename"%string); cbn; tauto | apply (H "rename_all"%string); cbn; tauto
              | apply (H "transparent"%string); cbn; tauto | apply (H "untagged"%string); cbn; tauto
              | apply (H "tag"%string); cbn; tauto | apply (H "content"%string); cbn; tauto
              | apply (H "skip"%string); cbn; tauto | apply (H "skip_serializing"%string); cbn; tauto
              | apply (H "skip_serializing_if"%string); cbn; tauto | apply (H "flatten"%string); cbn; tauto ]] end);
        reflexivity.
  Qed.

  (** ** Slots *)

  Definition key_eq_dec (a b : key) : {a = b} + {a <> b}.
  Proof. decide equality. Defined.

  Definition olist {T} (mk : T -> setting) (o : option T) : list setting :=
    match o with Some v => [mk v] | None => [] end.

  (** the content of the variable for [k], as settings *)
  Definition get (k : key) (s : slots) : list setting :=
    match k with
    | KRename => olist SRename (s_rename s) | KRenameAll => olist SRenameAll (s_rename_all s)
    | KTransparent => olist (fun _ => STransparent) (s_transparent s)
    | KUntagged => olist (fun _ => SUntagged) (s_untagged s)
    | KTag => olist STag (s_tag s) | KContent => olist SContent (s_content s)
    | KRepr => olist (fun _ => SRepr) (s_repr s) | KSkip => olist (fun _ => SSkip) (s_skip s)
    | KSkipIf => olist (fun _ => SSkipIf) (s_skip_if s) | KFlatten => olist (fun _ => SFlatten) (s_flatten s)
    | KOptional => olist (fun _ => SOptional) (s_optional s)
    | KDescription => olist SDescription (s_description s) | KFormat => olist SFormat (s_format s)
    | KExample => olist SExample (s_example s) | KInline => olist (fun _ => SInline) (s_inline s)
    | KNullable => olist (fun _ => SNullable) (s_nullable s) | KType => map SType (s_types s)
    end.

  Lemma get_ext s1 s2 : (forall k, get k s1 = get k s2) -> s1 = s2.
  Proof.
    intros H. destruct s1, s2.
    pose proof (H KRename); pose proof (H KRenameAll); pose proof (H KTransparent); pose proof (H KUntagged);
    pose proof (H KTag); pose proof (H KContent); pose proof (H KRepr); pose proof (H KSkip); pose proof (H KSkipIf);
    pose proof (H KFlatten); pose proof (H KOptional); pose proof (H KDescription); pose proof (H KFormat);
    pose proof (H KExample); pose proof (H KInline); pose proof (H KNullable); pose proof (H KType) as Ht. clear H.
    cbn in *.
    assert (Htypes : s_types = s_types0).
    { clear - Ht. revert s_types0 Ht. induction s_types as [|t l IH]; intros [|t' l']; cbn; try discriminate; auto.
      intros [= -> E]. f_equal. now apply IH. }
    clear Ht. subst s_types0.
    repeat match goal with
         | H : olist _ ?a = olist _ ?b |- _ =>
             let E := fresh in
             assert (E : a = b) by
               (clear - H; destruct a, b; cbn in H; try congruence;
                repeat match goal with x : unit |- _ => destruct x end; reflexivity);
             clear H; rewrite E; clear E
         end.
    reflexivity.
  Qed.

  Definition of_key (k : key) (l : list setting) : list setting :=
    filter (fun x => if key_eq_dec (key_of x) k then true else false) l.

  Lemma assign_get x s k :
    get k (fst (assign x s)) =
    if key_eq_dec (key_of x) k
    then (if key_eq_dec k KType then get k s ++ [x] else match get k s with [] => [x] | l => l end)
    else get k s.
  Proof.
    destruct s, x, k; cbn; try reflexivity;
      try (match goal with |- context [attr_set ?o _] => destruct o; reflexivity end).
    now rewrite map_app.
  Qed.

  Lemma assign_dup x s :
    snd (assign x s) = true <-> key_of x <> KType /\ get (key_of x) s <> [].
  Proof.
    destruct s, x; cbn [assign get key_of];
      try (match goal with |- context [attr_set ?o _] =>
             destruct o; cbn; (split; [intros; split; congruence|intros [? ?]; congruence]) end).
    split; [discriminate | intros [H _]; congruence].
  Qed.

  (** ** The loop *)

  Definition entry_set (pos : position) (e : entry) : list setting :=
    match e with
    | Item f n => match item_action pos f n with Set_ x => [x] | _ => [] end
    | Bad _ => []
    end.
  Definition sets (pos : position) (l : list entry) : list setting := flat_map (entry_set pos) l.
  Definition entry_clean (pos : position) (e : entry) : Prop :=
    match e with
    | Item f n => match item_action pos f n with Error _ => False | _ => True end
    | Bad _ => False
    end.

  Notation step := (step pe pp).

  Lemma of_key_app k a b : of_key k (a ++ b) = of_key k a ++ of_key k b.
  Proof. apply filter_app. Qed.

  Lemma step_errors pos s es e : exists es', snd (step pos (s, es) e) = es ++ es'.
  Proof.
    destruct e as [f n|x]; cbn.
    - destruct (item_action pos f n) as [|y|y]; cbn.
      + exists []. now rewrite app_nil_r.
      + destruct (assign y s) as [s' []]; cbn; [eauto|]. exists []. now rewrite app_nil_r.
      + eauto.
    - eauto.
  Qed.

  Lemma loop_errors pos l st : exists es', snd (fold_left (step pos) l st) = snd st ++ es'.
  Proof.
    revert st; induction l as [|e l IH]; intros [s es]; cbn [fold_left].
    - exists []. now rewrite app_nil_r.
    - destruct (step_errors pos s es e) as [e1 H1]. destruct (IH (step pos (s, es) e)) as [e2 H2].
      rewrite H2, H1, <- app_assoc. eauto.
  Qed.

  Lemma loop_ok pos l s s' : fold_left (step pos) l (s, []) = (s', []) ->
    Forall (entry_clean pos) l /\ (forall k, get k s' = get k s ++ of_key k (sets pos l)) /\
    (forall k, k <> KType -> get k s = [] -> length (of_key k (sets pos l)) <= 1) /\
    (forall k, k <> KType -> get k s <> [] -> of_key k (sets pos l) = []).
  Proof.
    revert s. induction l as [|e l IH]; intros s H.
    - cbn in H. injection H as ->. split; [constructor|]. split; [intros k; cbn; now rewrite app_nil_r|].
      split; auto.
    - cbn [fold_left] in H.
      destruct (step pos (s, []) e) as [s1 es1] eqn:E.
      assert (es1 = []).
      { destruct (loop_errors pos l (s1, es1)) as [x Hx]. rewrite H in Hx. cbn in Hx.
        symmetry in Hx. apply app_eq_nil in Hx. tauto. }
      subst es1. apply IH in H as (Hc & Hg & H1 & H2).
      destruct e as [f n|x]; cbn in E; [|discriminate].
      unfold sets. cbn [flat_map entry_set]. fold (sets pos l).
      destruct (item_action pos f n) as [|y|y] eqn:Ea; [| |discriminate].
      + injection E as ->. cbn [app]. repeat split; auto. constructor; auto. cbn. now rewrite Ea.
      + destruct (assign y s) as [s2 dup] eqn:Eas. destruct dup; [discriminate|]. injection E as ->.
        assert (Hd : ~ (key_of y <> KType /\ get (key_of y) s <> [])).
        { rewrite <- assign_dup, Eas. discriminate. }
        assert (Hget : forall k, get k s1 = get k s ++ of_key k [y]).
        { intros k. replace s1 with (fst (assign y s)) by now rewrite Eas. rewrite assign_get. unfold of_key. cbn [filter].
          destruct (key_eq_dec (key_of y) k) as [<-|Hk]; [|now rewrite app_nil_r].
          destruct (key_eq_dec (key_of y) KType); auto.
          destruct (get (key_of y) s) eqn:Eg; auto. exfalso. apply Hd. split; congruence. }
        split; [constructor; auto; cbn; now rewrite Ea|].
        split; [|split]; intros k.
        * rewrite Hg, Hget, of_key_app, app_assoc. reflexivity.
        * intros Hk Hnil. rewrite of_key_app, app_length.
          specialize (Hget k). rewrite Hnil in Hget. cbn [app] in Hget.
          destruct (of_key k [y]) as [|z zs] eqn:Ez.
          -- cbn. apply H1; auto.
          -- rewrite (H2 k Hk); [|rewrite Hget; discriminate].
             assert (length (of_key k [y]) <= 1)
               by (unfold of_key; cbn; destruct (key_eq_dec (key_of y) k); cbn; lia).
             rewrite Ez in H. cbn in *. lia.
        * intros Hk Hne. rewrite of_key_app.
          assert (Hy : of_key k [y] = []).
          { unfold of_key. cbn. destruct (key_eq_dec (key_of y) k) as [<-|]; auto. exfalso. tauto. }
          rewrite Hy. cbn. apply H2; auto. rewrite Hget, Hy, app_nil_r. auto.
  Qed.

  Lemma loop_ok_inv pos l s :
    Forall (entry_clean pos) l ->
    (forall k, k <> KType -> length (get k s ++ of_key k (sets pos l)) <= 1) ->
    exists s', fold_left (step pos) l (s, []) = (s', []).
  Proof.
    intros Hc. revert s. induction Hc as [|e l He Hc IH]; intros s Hl; [cbn; eauto|].
    cbn [fold_left]. destruct e as [f n|x]; [|destruct He]. cbn in He |- *.
    unfold sets in Hl. cbn [flat_map entry_set] in Hl. fold (sets pos l) in Hl.
    destruct (item_action pos f n) as [|y|y] eqn:Ea; [|  |destruct He].
    - apply IH. apply Hl.
    - destruct (assign y s) as [s1 dup] eqn:Eas.
      assert (Hdup : dup = false).
      { destruct dup; auto. exfalso. assert (Hd : snd (assign y s) = true) by now rewrite Eas.
        apply assign_dup in Hd as [Hk Hne]. specialize (Hl _ Hk).
        rewrite of_key_app, app_length in Hl. unfold of_key at 1 in Hl. cbn [filter] in Hl.
        destruct (key_eq_dec (key_of y) (key_of y)); [|congruence]. cbn in Hl.
        destruct (get (key_of y) s); [congruence|]. cbn in Hl. lia. }
      subst dup. apply IH. intros k Hk. replace s1 with (fst (assign y s)) by now rewrite Eas. rewrite assign_get.
      specialize (Hl k Hk). rewrite of_key_app in Hl. unfold of_key at 1 in Hl. cbn [filter] in Hl.
      destruct (key_eq_dec (key_of y) k) as [<-|]; auto.
      destruct (key_eq_dec (key_of y) KType); [congruence|].
      destruct (get (key_of y) s); auto. rewrite !app_length in *. cbn in Hl |- *. lia.
  Qed.

  (** ** Written items *)

  Definition mk_item (it : attr_from * nested) : entry := let (f, n) := it in Item f n.

  Lemma belongs_items a f : belongs a f -> get_meta_items a =
    match at_meta a with PmList items => map (Item f) items | PmOther => [Bad ENotList] | PmErr => [Bad ESyntax] end.
  Proof. unfold get_meta_items. destruct 1 as [H|H|H]; rewrite H; reflexivity. Qed.

  Lemma belongs_dec a : (exists f, belongs a f) \/ foreign a.
  Proof.
    destruct (is_ident OPG (at_path a)) eqn:E1.
    { apply is_ident_iff in E1. left. exists FromOpg. now constructor. }
    destruct (is_ident SERDE (at_path a)) eqn:E2.
    { apply is_ident_iff in E2. left. exists FromSerde. now constructor. }
    destruct (is_ident REPR (at_path a)) eqn:E3.
    { apply is_ident_iff in E3. left. exists FromRepr. now constructor. }
    apply is_ident_false in E1, E2, E3. right. intros f [H|H|H]; [apply E1|apply E2|apply E3]; exact H.
  Qed.

  Lemma foreign_items a : foreign a -> get_meta_items a = [].
  Proof.
    intros H. unfold get_meta_items.
    destruct (is_ident OPG (at_path a)) eqn:E1.
    { apply is_ident_iff in E1. exfalso. apply (H FromOpg). now constructor. }
    destruct (is_ident SERDE (at_path a)) eqn:E2.
    { apply is_ident_iff in E2. exfalso. apply (H FromSerde). now constructor. }
    destruct (is_ident REPR (at_path a)) eqn:E3; auto.
    apply is_ident_iff in E3. exfalso. apply (H FromRepr). now constructor.
  Qed.

  Lemma written_entries l its : written l its -> flat_map get_meta_items l = map mk_item its.
  Proof.
    induction 1 as [|a l its Hf Hw IH|a f items l its Hb Hm Hw IH]; auto.
    - cbn. now rewrite foreign_items.
    - cbn [flat_map]. rewrite (belongs_items a f Hb), Hm, IH, map_app, map_map. reflexivity.
  Qed.

  Lemma entries_written pos l : Forall (entry_clean pos) (flat_map get_meta_items l) -> exists its, written l its.
  Proof.
    induction l as [|a l IH]; intros H; [eexists; constructor|].
    cbn [flat_map] in H. apply Forall_app in H as [Ha Hl]. destruct (IH Hl) as [its Hits].
    destruct (belongs_dec a) as [[f Hf]|Hf].
    - rewrite (belongs_items a f Hf) in Ha. destruct (at_meta a) as [items| |] eqn:Em.
      + eexists. eapply wr_items; eauto.
      + inversion Ha as [|? ? Hbad]; destruct Hbad.
      + inversion Ha as [|? ? Hbad]; destruct Hbad.
    - exists its. now constructor.
  Qed.

  Lemma written_fun l its1 its2 : written l its1 -> written l its2 -> its1 = its2.
  Proof.
    intros H1 H2. apply written_entries in H1, H2. rewrite H1 in H2. clear H1. revert its2 H2.
    induction its1 as [|[f n] its1 IH]; intros [|[f2 n2] its2]; cbn; try discriminate; auto.
    intros [= -> -> H]. f_equal. auto.
  Qed.

  (** the settings of a list of items *)
  Definition item_set (pos : position) (it : attr_from * nested) : list setting := entry_set pos (mk_item it).

  Lemma item_set_iff pos f n x : In x (item_set pos (f, n)) <-> says pos f n x.
  Proof.
    unfold item_set. cbn. rewrite <- action_says_iff. destruct (item_action pos f n); cbn; split; try tauto; try congruence.
    - intros [->|[]]; auto.
    - intros [= ->]. auto.
  Qed.

  Lemma sets_items pos its : sets pos (map mk_item its) = flat_map (item_set pos) its.
  Proof. unfold sets. induction its; cbn; auto. now rewrite IHits. Qed.

  Lemma items_clean pos its : Forall (entry_clean pos) (map mk_item its) <->
    (forall f n, In (f, n) its -> ~ malformed pos f n).
  Proof.
    rewrite Forall_map, Forall_forall. split.
    - intros H f n Hin Hm. specialize (H _ Hin). cbn in H. apply action_malformed_iff in Hm as [e He]. now rewrite He in H.
    - intros H [f n] Hin. specialize (H f n Hin). cbn. destruct (item_action pos f n) eqn:E; auto.
      apply H. apply action_malformed_iff. eauto.
  Qed.

  Lemma of_key_In k l x : In x (of_key k l) <-> In x l /\ key_of x = k.
  Proof. unfold of_key. rewrite filter_In. destruct (key_eq_dec (key_of x) k); intuition congruence. Qed.

  Lemma item_set_single pos it : item_set pos it = [] \/ exists x, item_set pos it = [x].
  Proof. destruct it as [f n]. unfold item_set. cbn. destruct (item_action pos f n); eauto. Qed.

  Lemma occurs_split pos k its : of_key k (flat_map (item_set pos) its) <> [] ->
    exists l1 f n l2 x, its = l1 ++ (f, n) :: l2 /\ says pos f n x /\ key_of x = k.
  Proof.
    intros H. destruct (of_key k (flat_map (item_set pos) its)) as [|x l] eqn:E; [congruence|].
    assert (Hx : In x (of_key k (flat_map (item_set pos) its))) by (rewrite E; now left).
    apply of_key_In in Hx as [Hx Hk]. apply in_flat_map in Hx as ([f n] & Hin & Hs).
    apply item_set_iff in Hs. apply in_split in Hin as (l1 & l2 & ->). exists l1, f, n, l2, x. auto.
  Qed.

  Lemma repeated_iff pos its : repeated pe pp pos its <->
    exists k, 2 <= length (of_key k (flat_map (item_set pos) its)).
  Proof.
    split.
    - intros (l1 & f1 & n1 & l2 & f2 & n2 & l3 & x & y & -> & Hx & Hy & Hk). exists (key_of x).
      apply item_set_iff in Hx, Hy.
      rewrite flat_map_app. cbn [flat_map]. rewrite flat_map_app. cbn [flat_map].
      rewrite !of_key_app, !app_length.
      assert (Ha : In x (of_key (key_of x) (item_set pos (f1, n1)))) by (apply of_key_In; auto).
      assert (Hb : In y (of_key (key_of x) (item_set pos (f2, n2)))) by (apply of_key_In; auto).
      destruct (of_key (key_of x) (item_set pos (f1, n1))); [destruct Ha|].
      destruct (of_key (key_of x) (item_set pos (f2, n2))); [destruct Hb|]. cbn. lia.
    - intros [k H]. induction its as [|[f n] its IH]; [cbn in H; lia|].
      cbn [flat_map] in H. rewrite of_key_app, app_length in H.
      destruct (item_set_single pos (f, n)) as [E|[x E]]; rewrite E in H.
      + cbn in H. destruct (IH H) as (l1 & f1 & n1 & l2 & f2 & n2 & l3 & x & y & -> & Hr).
        exists ((f, n) :: l1), f1, n1, l2, f2, n2, l3, x, y. auto.
      + unfold of_key at 1 in H. cbn [filter] in H. destruct (key_eq_dec (key_of x) k) as [Hk|Hk].
        * destruct (of_key k (flat_map (item_set pos) its)) eqn:Eo; [cbn in H; lia|].
          destruct (occurs_split pos k its) as (l1 & f2 & n2 & l2 & y & -> & Hs & Hy); [congruence|].
          exists [], f, n, l1, f2, n2, l2, x, y. repeat split; auto; [|congruence].
          apply item_set_iff. rewrite E. now left.
        * cbn in H. destruct (IH H) as (l1 & f1 & n1 & l2 & f2 & n2 & l3 & x' & y & -> & Hr).
          exists ((f, n) :: l1), f1, n1, l2, f2, n2, l3, x', y. auto.
  Qed.

  (** ** Acceptance *)

  Definition ok_state (st : slots * list err) : Prop := snd st = [] /\ length (s_types (fst st)) <= 1.

  Lemma get_no_slots k : get k no_slots = [].
  Proof. destruct k; reflexivity. Qed.

  Lemma parse_accept pos l : ok_state (parse_attrs pe pp pos l) <-> acceptable pe pp pos l.
  Proof.
    unfold ok_state, parse_attrs. split.
    - destruct (fold_left (step pos) (flat_map get_meta_items l) (no_slots, [])) as [s es] eqn:E. cbn. intros [-> Ht].
      apply loop_ok in E as (Hc & Hg & H1 & _). destruct (entries_written pos l Hc) as [its Hw].
      pose proof (written_entries _ _ Hw) as He. rewrite He in *. exists its. split; auto.
      split; [now apply items_clean|]. rewrite repeated_iff. intros [k Hk]. rewrite <- sets_items in Hk.
      destruct (key_eq_dec k KType) as [->|Hne].
      + specialize (Hg KType). rewrite get_no_slots in Hg. cbn [get app] in Hg. rewrite <- Hg, map_length in Hk. lia.
      + specialize (H1 k Hne (get_no_slots k)). lia.
    - intros (its & Hw & Hm & Hr). pose proof (written_entries _ _ Hw) as He. rewrite He.
      rewrite repeated_iff in Hr.
      assert (Hlen : forall k, length (of_key k (sets pos (map mk_item its))) <= 1).
      { intros k. destruct (Nat.le_gt_cases (length (of_key k (sets pos (map mk_item its)))) 1); auto.
        exfalso. apply Hr. exists k. rewrite <- sets_items. lia. }
      destruct (loop_ok_inv pos (map mk_item its) no_slots) as [s Es].
      + now apply items_clean.
      + intros k _. rewrite get_no_slots. apply Hlen.
      + rewrite Es. cbn. split; auto. apply loop_ok in Es as (_ & Hg & _). specialize (Hg KType).
        rewrite get_no_slots in Hg. cbn [get app] in Hg. rewrite <- (map_length SType), Hg. apply Hlen.
  Qed.

  Lemma parse_get pos l its s : written l its -> parse_attrs pe pp pos l = (s, []) ->
    forall k, get k s = of_key k (flat_map (item_set pos) its).
  Proof.
    intros Hw H k. unfold parse_attrs in H. rewrite (written_entries _ _ Hw) in H.
    apply loop_ok in H as (_ & Hg & _). rewrite Hg, get_no_slots, sets_items. reflexivity.
  Qed.

  Lemma parse_written pos l s : parse_attrs pe pp pos l = (s, []) -> exists its, written l its.
  Proof. intros H. unfold parse_attrs in H. apply loop_ok in H as (Hc & _). eapply entries_written; eauto. Qed.

  Lemma parse_said pos l s x : parse_attrs pe pp pos l = (s, []) ->
    (said pe pp pos l x <-> In x (get (key_of x) s)).
  Proof.
    intros H. destruct (parse_written _ _ _ H) as [its Hw]. rewrite (parse_get _ _ _ _ Hw H), of_key_In, in_flat_map.
    split.
    - intros (its' & f & n & Hw' & Hin & Hs). rewrite (written_fun _ _ _ Hw Hw'). split; auto.
      exists (f, n). split; auto. now apply item_set_iff.
    - intros [([f n] & Hin & Hs) _]. exists its, f, n. repeat split; auto. now apply item_set_iff.
  Qed.

  Lemma takes_olist {T} pos l s (mk : T -> setting) k (o : option T) :
    (forall v w, mk v = mk w -> v = w) -> (forall v, key_of (mk v) = k) ->
    get k s = olist mk o -> parse_attrs pe pp pos l = (s, []) -> takes pe pp pos l mk o.
  Proof.
    intros Hinj Hk Hg Hp v. rewrite (parse_said _ _ _ _ Hp), Hk, Hg. destruct o as [w|]; cbn.
    - split; [intros [= ->]; auto | intros [H|[]]; f_equal; auto].
    - split; [discriminate | tauto].
  Qed.

  Lemma flag_olist pos l s x k (o : option unit) :
    key_of x = k -> get k s = olist (fun _ => x) o -> parse_attrs pe pp pos l = (s, []) ->
    flag_takes pe pp pos l x (is_some o).
  Proof.
    intros Hk Hg Hp. unfold flag_takes. rewrite (parse_said _ _ _ _ Hp), Hk, Hg. destruct o; cbn; intuition congruence.
  Qed.

  Lemma takes_types pos l s : parse_attrs pe pp pos l = (s, []) -> length (s_types s) <= 1 ->
    takes pe pp pos l SType (fst (at_most_one (s_types s))).
  Proof.
    intros Hp Hl v. rewrite (parse_said _ _ _ _ Hp). cbn [key_of get at_most_one fst].
    destruct (s_types s) as [|t [|t' ts]]; cbn in *; try lia; intuition congruence.
  Qed.

  Lemma at_most_one_ok ts : snd (at_most_one ts) = [] <-> length ts <= 1.
  Proof.
    unfold at_most_one. cbn [snd]. destruct (Nat.ltb_spec 1 (length ts)); split; try congruence; lia.
  Qed.

  (** ** Rearrangement *)

  Lemma Permutation_short {T} (a b : list T) : Permutation a b -> length a <= 1 -> a = b.
  Proof.
    intros H Hl. destruct a as [|x [|y a]]; cbn in Hl; try lia.
    - apply Permutation_nil in H. now subst.
    - apply Permutation_length_1_inv in H. now subst.
  Qed.

  Lemma parse_rearranged pos l1 l2 s : rearranged l1 l2 ->
    parse_attrs pe pp pos l1 = (s, []) -> length (s_types s) <= 1 -> parse_attrs pe pp pos l2 = (s, []).
  Proof.
    intros (its1 & its2 & W1 & W2 & HP) H1 Ht.
    assert (A1 : acceptable pe pp pos l1) by (apply parse_accept; unfold ok_state; rewrite H1; auto).
    destruct A1 as (its & W & Hm & Hr). rewrite (written_fun _ _ _ W W1) in *. clear its W.
    assert (HPk : forall k, Permutation (of_key k (flat_map (item_set pos) its1)) (of_key k (flat_map (item_set pos) its2))).
    { intros k. assert (Hf : Permutation (flat_map (item_set pos) its1) (flat_map (item_set pos) its2))
        by now apply Permutation_flat_map.
      clear - Hf. unfold of_key. induction Hf; cbn; auto.
      - destruct (key_eq_dec (key_of x) k); auto.
      - destruct (key_eq_dec (key_of x) k), (key_eq_dec (key_of y) k); auto. constructor.
      - eapply perm_trans; eauto. }
    assert (Hlen : forall k, length (of_key k (flat_map (item_set pos) its1)) <= 1).
    { intros k. destruct (Nat.le_gt_cases (length (of_key k (flat_map (item_set pos) its1))) 1); auto.
      exfalso. apply Hr. apply repeated_iff. exists k. lia. }
    assert (A2 : ok_state (parse_attrs pe pp pos l2)).
    { apply parse_accept. exists its2. split; auto. split.
      - intros f n Hin. apply Hm. eapply Permutation_in; [symmetry|]; eauto.
      - rewrite repeated_iff. intros [k Hk]. rewrite <- (Permutation_length (HPk k)) in Hk. specialize (Hlen k). lia. }
    destruct A2 as [E2 _]. destruct (parse_attrs pe pp pos l2) as [s2 es2] eqn:H2. cbn in E2. subst es2.
    f_equal. apply get_ext. intros k.
    rewrite (parse_get _ _ _ _ W1 H1), (parse_get _ _ _ _ W2 H2). symmetry. apply Permutation_short; auto.
  Qed.

  (** ** Unknown serde items *)

  Lemma parse_without pos (P : nested -> Prop) l1 l2 : (forall n, P n -> item_action pos FromSerde n = Ignore) ->
    without P l1 l2 -> parse_attrs pe pp pos l1 = parse_attrs pe pp pos l2.
  Proof.
    intros HP (its1 & its2 & W1 & W2 & Hd). unfold parse_attrs.
    rewrite (written_entries _ _ W1), (written_entries _ _ W2). generalize (no_slots, @nil err). clear W1 W2.
    induction Hd as [|it l1' l2' Hd IH|n l1' l2' Hu Hd IH]; intros st; auto.
    - cbn. apply IH.
    - cbn [map fold_left mk_item]. rewrite <- IH. f_equal. destruct st as [s es]. cbn. now rewrite HP.
  Qed.

  Lemma parse_without_unknown pos l1 l2 : without_unknown pos l1 l2 ->
    parse_attrs pe pp pos l1 = parse_attrs pe pp pos l2.
  Proof. apply parse_without. intros n. apply unknown_serde_ignored. Qed.

  Lemma unknown_rule_ignored pos n : unknown_rule n -> item_action pos FromSerde n = Ignore.
  Proof.
    assert (Hr : forall s, (forall r, ~ In (s, r) rule_spellings) -> set_rule s = Ignore).
    { intros s H. unfold set_rule. destruct (rule_from_str s) eqn:E; auto. apply rule_iff in E. now destruct (H r). }
    intros [s H|items s Hi H].
    - destruct pos; cbn; auto.
    - apply get_ser_iff in Hi. destruct pos; cbn; unfold with_renames; rewrite ?Hi; auto.
  Qed.
End Facts.
