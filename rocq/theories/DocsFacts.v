(** Deriving from a source without its documentation. *)
From Verif Require Import Attr Ast Derive Schema Gen GenSpec DocsSpec.

Section Docs.
  Variable K : docs.
  Variable pe pp : str -> bool.
  Variable uni : N -> bool.

  (** ** Attributes *)

  Definition keep (en : entry) : bool := match en with Item FromOpg n => negb (documents K n) | _ => true end.

  Lemma filter_items f (items : list nested) : f <> FromOpg -> filter keep (map (Item f) items) = map (Item f) items.
  Proof. intros Hf. induction items as [|n l IH]; [reflexivity|]. cbn [map filter]. destruct f; try congruence; cbn [keep]; now rewrite IH. Qed.
  Lemma filter_opg (items : list nested) :
    filter keep (map (Item FromOpg) items) = map (Item FromOpg) (filter (fun n => negb (documents K n)) items).
  Proof. induction items as [|n l IH]; [reflexivity|]. cbn [map filter keep]. destruct (documents K n); cbn [negb map]; now rewrite IH. Qed.

  Lemma bare_attr_entries a : flat_map get_meta_items (bare_attr K a) = filter keep (get_meta_items a).
  Proof.
    unfold bare_attr. fold OPG. destruct (is_ident (u "doc") (at_path a) && of_descriptions K) eqn:Hd.
    { apply andb_prop in Hd as [Hd _]. unfold get_meta_items.
      assert (is_ident OPG (at_path a) = false /\ is_ident SERDE (at_path a) = false /\ is_ident REPR (at_path a) = false) as (-> & -> & ->); [|reflexivity].
      unfold is_ident in *. destruct (pa_segs (at_path a)) as [|s [|]]; try discriminate. apply andb_prop in Hd as [_ Hd]. apply str_eqb_eq in Hd as ->.
      repeat split; now rewrite andb_comm. }
    clear Hd. unfold get_meta_items at 2. destruct (is_ident OPG (at_path a)) eqn:Ho.
    - destruct (at_meta a) as [items| |] eqn:Em.
      + rewrite filter_opg. destruct (filter (fun n => negb (documents K n)) items) as [|n l]; [reflexivity|].
        cbn [flat_map]. unfold get_meta_items. cbn [at_path at_meta]. rewrite Ho. apply app_nil_r.
      + cbn [flat_map]. unfold get_meta_items. rewrite Ho, Em. reflexivity.
      + cbn [flat_map]. unfold get_meta_items. rewrite Ho, Em. reflexivity.
    - cbn [flat_map]. rewrite app_nil_r. unfold get_meta_items. rewrite Ho.
      destruct (is_ident SERDE (at_path a)).
      { destruct (at_meta a); [|reflexivity|reflexivity]. symmetry. now apply filter_items. }
      destruct (is_ident REPR (at_path a)); [|reflexivity].
      destruct (at_meta a); [|reflexivity|reflexivity]. symmetry. now apply filter_items.
  Qed.
  Lemma filter_app' {A} (f : A -> bool) l1 l2 : filter f (l1 ++ l2) = filter f l1 ++ filter f l2.
  Proof. induction l1 as [|x l IH]; [reflexivity|]. cbn. rewrite IH. now destruct (f x). Qed.
  Lemma bare_attrs_entries l : flat_map get_meta_items (bare_attrs K l) = filter keep (flat_map get_meta_items l).
  Proof.
    induction l as [|a l IH]; [reflexivity|]. unfold bare_attrs in *. cbn [flat_map]. rewrite flat_map_app, IH, bare_attr_entries. now rewrite filter_app'.
  Qed.

  Definition bare_slots (s : slots) : slots :=
    let 'Build_slots a1 a2 a3 a4 a5 a6 a7 a8 a9 a10 a11 a12 a13 a14 a15 a16 a17 := s in
    Build_slots a1 a2 a3 a4 a5 a6 a7 a8 a9 a10 a11
      (drop (of_descriptions K) a12) (drop (of_formats K) a13) (drop (of_examples K) a14) a15 a16 a17.

  (** the settings that are documentation of these kinds *)
  Definition doc_setting (x : setting) : bool :=
    match x with
    | SDescription _ => of_descriptions K
    | SFormat _ => of_formats K
    | SExample _ => of_examples K
    | _ => false
    end.

  Lemma attr_set_ok {T} (a : option T) v b : attr_set a v = (b, false) -> a = None /\ b = Some v.
  Proof. destruct a; cbn; [discriminate|]. intros [= <-]. now split. Qed.

  Lemma assign_keep x s s' : doc_setting x = false -> assign x s = (s', false) -> assign x (bare_slots s) = (bare_slots s', false).
  Proof.
    intros Hx. destruct s as [a1 a2 a3 a4 a5 a6 a7 a8 a9 a10 a11 a12 a13 a14 a15 a16 a17].
    destruct x; cbn [assign bare_slots doc_setting] in *; try (rewrite Hx; cbn [drop]);
    lazymatch goal with
    | |- (let (_, _) := attr_set ?a ?v in _) = _ -> _ =>
        destruct (attr_set a v) as [? []] eqn:Ea; intros [= <-]; cbn [bare_slots]; try rewrite Hx; reflexivity
    | _ => intros [= <-]; reflexivity
    end.
  Qed.
  Lemma assign_drop x s s' e : doc_setting x = true -> assign x s = (s', e) -> bare_slots s' = bare_slots s.
  Proof.
    intros Hx. destruct s as [a1 a2 a3 a4 a5 a6 a7 a8 a9 a10 a11 a12 a13 a14 a15 a16 a17].
    destruct x; cbn [assign doc_setting] in *; try discriminate;
    match goal with |- (let (_, _) := attr_set ?a ?v in _) = _ -> _ => destruct (attr_set a v) as [b e'] end;
    intros [= <- _]; cbn [bare_slots]; rewrite Hx; reflexivity.
  Qed.

  (** which settings an item makes *)
  Lemma opg_documents pos n x : item_action pe pp pos FromOpg n = Set_ x -> documents K n = doc_setting x.
  Proof.
    assert (Hc : opg_common pe n = Set_ x -> documents K n = doc_setting x).
    { destruct n as [l|[p|p l|p items]]; cbn [opg_common documents].
      - destruct l; cbn [with_lit_simple]; [|discriminate]. now intros [= <-].
      - destruct (explicit_from_path p); [|discriminate]. now intros [= <-].
      - fold FORMAT EXAMPLE EXAMPLE_WITH. destruct (is_ident FORMAT p) eqn:Ef.
        + assert (is_ident EXAMPLE p = false /\ is_ident EXAMPLE_WITH p = false) as [-> ->].
          { unfold is_ident in *. destruct (pa_segs p) as [|s [|]]; try discriminate. apply andb_prop in Ef as [_ Ef]. apply str_eqb_eq in Ef as ->.
            split; now rewrite andb_comm. }
          destruct l; cbn [with_lit_str]; [|discriminate]. intros [= <-]. cbn [doc_setting andb orb]. now rewrite orb_false_r.
        + cbn [andb orb]. destruct (is_ident EXAMPLE p) eqn:Ee.
          * destruct l; cbn [with_lit_str]; [|discriminate]. intros [= <-]. reflexivity.
          * cbn [orb]. destruct (is_ident EXAMPLE_WITH p); [|discriminate]. unfold set_example_with. destruct l; cbn [with_lit_str]; [|discriminate].
            destruct (pe s); [|discriminate]. intros [= <-]. reflexivity.
      - discriminate. }
    destruct pos as [k| |]; cbn [item_action container_item variant_item field_item]; destruct n as [l|[p|p l|p items]]; try exact Hc.
    - destruct (is_ident INLINE p); [now intros [= <-]|]. destruct (is_ident NULLABLE p); [now intros [= <-]|exact Hc].
    - destruct (is_ident INLINE p); [now intros [= <-]|exact Hc].
    - destruct (is_ident OPTIONAL p); [now intros [= <-]|]. destruct (is_ident INLINE p); [now intros [= <-]|].
      destruct (is_ident NULLABLE p); [now intros [= <-]|exact Hc].
  Qed.
  Lemma other_documents pos f n x : f <> FromOpg -> item_action pe pp pos f n = Set_ x -> doc_setting x = false.
  Proof.
    intros Hf. destruct f; [| congruence |].
    - destruct pos as [k| |]; cbn [item_action container_item variant_item field_item]; destruct n as [l|[p|p l|p items]];
        cbn [serde_rename serde_rename_all]; try discriminate; unfold with_lit_str, with_lit_simple, with_renames, set_rule, set_skip_if, with_lit_str;
        intros Hx; repeat (match type of Hx with context [match ?y with _ => _ end] => destruct y end; try discriminate);
        injection Hx as <-; reflexivity.
    - destruct pos; cbn; intros [= <-]; reflexivity.
  Qed.

  Lemma step_grows pos ens st : exists es, snd (fold_left (step pe pp pos) ens st) = snd st ++ es.
  Proof.
    revert st. induction ens as [|en ens IH]; intros st; [exists []; now rewrite app_nil_r|]. cbn [fold_left].
    destruct (IH (step pe pp pos st en)) as [es ->]. destruct st as [s es0]. unfold step. cbn [snd].
    destruct en as [f n|e]; cbn [snd]; [|now exists (e :: es); rewrite <- app_assoc].
    destruct (item_action pe pp pos f n) as [|x|e]; cbn [snd]; [now exists es| |now exists (e :: es); rewrite <- app_assoc].
    destruct (assign x s) as [s' [|]]; cbn [snd]; [now exists (EDuplicate :: es); rewrite <- app_assoc|now exists es].
  Qed.
  Lemma fold_bare pos ens s s' : fold_left (step pe pp pos) ens (s, []) = (s', []) ->
    fold_left (step pe pp pos) (filter keep ens) (bare_slots s, []) = (bare_slots s', []).
  Proof.
    revert s. induction ens as [|en ens IH]; intros s; [intros [= <-]; reflexivity|].
    cbn [fold_left filter]. intros H. destruct (step pe pp pos (s, []) en) as [s1 es1] eqn:Es.
    assert (es1 = []) as ->.
    { destruct (step_grows pos ens (s1, es1)) as [es He]. rewrite H in He. cbn [snd] in He. now destruct es1. }
    specialize (IH _ H). unfold step in Es. destruct en as [f n|e]; [|discriminate].
    assert (Hstep : forall b, keep (Item f n) = b ->
      if b then step pe pp pos (bare_slots s, []) (Item f n) = (bare_slots s1, []) else bare_slots s1 = bare_slots s).
    { intros b <-. unfold step. destruct (item_action pe pp pos f n) as [|x|e] eqn:Ea.
      - injection Es as <-. destruct (keep (Item f n)); reflexivity.
      - destruct (assign x s) as [s2 dup] eqn:Ex. destruct dup; [discriminate|]. injection Es as <-.
        assert (Hk : keep (Item f n) = negb (doc_setting x)).
        { destruct f; cbn [keep]; [|now rewrite (opg_documents _ _ _ Ea)|]; symmetry; apply negb_true_iff;
            (eapply other_documents; [|exact Ea]; discriminate). }
        rewrite Hk. destruct (doc_setting x) eqn:Hd; cbn [negb].
        + exact (assign_drop _ _ _ _ Hd Ex).
        + now rewrite (assign_keep _ _ _ Hd Ex).
      - discriminate. }
    destruct (keep (Item f n)) eqn:Hk; specialize (Hstep _ eq_refl); cbn iota in Hstep.
    - cbn [fold_left]. now rewrite Hstep.
    - now rewrite <- Hstep.
  Qed.
  Lemma parse_bare pos l s : parse_attrs pe pp pos l = (s, []) -> parse_attrs pe pp pos (bare_attrs K l) = (bare_slots s, []).
  Proof.
    unfold parse_attrs. intros H. rewrite bare_attrs_entries. apply fold_bare in H.
    replace (bare_slots no_slots) with no_slots in H; [exact H|]. unfold no_slots, bare_slots, drop. now destruct (of_descriptions K), (of_formats K), (of_examples K).
  Qed.
End Docs.
