(** Facts about the compile errors of the derive: the loops over attributes. *)
From Verif Require Import CaseSpec AttrSpec AttrFacts DeriveSpec DiagSpec.
From Coq Require Import Sorting.Sorted.
Local Open Scope string_scope. Local Open Scope list_scope.

(** ** Code that reports *)
Definition logs {A} (m : M A) (a : A) (ds : list diag) : Prop := forall l, m (Some l) = (Val a, Some (l ++ ds)).
Lemma logs_ret {A} (a : A) : logs (ret a) a [].
Proof. intros l. unfold ret. now rewrite app_nil_r. Qed.
Lemma logs_report d : logs (report d) tt [d].
Proof. intros l. reflexivity. Qed.
Lemma logs_bind {A B} (m : M A) (f : A -> M B) a b ds es : logs m a ds -> logs (f a) b es -> logs (bind_m m f) b (ds ++ es).
Proof. intros H1 H2 l. unfold bind_m. now rewrite H1, H2, app_assoc. Qed.
Lemma logs_then {A B} (m : M A) (f : A -> M B) a b ds : logs m a ds -> logs (f a) b [] -> logs (bind_m m f) b ds.
Proof. intros H1 H2. rewrite <- (app_nil_r ds). eapply logs_bind; eassumption. Qed.
Lemma logs_first {A B} (m : M A) (f : A -> M B) a b ds : logs m a [] -> logs (f a) b ds -> logs (bind_m m f) b ds.
Proof. intros H1 H2. change ds with ([] ++ ds). eapply logs_bind; eassumption. Qed.

(** ** Sorted lists *)
Section Sorted.
  Context {X : Type} (R : X -> X -> Prop).
  Lemma sorted_app l1 l2 : StronglySorted R l1 -> StronglySorted R l2 -> (forall x y, In x l1 -> In y l2 -> R x y) ->
    StronglySorted R (l1 ++ l2).
  Proof.
    intros H1 H2 H. induction H1 as [|a l1 H1 IH Ha]; [exact H2|]. cbn. constructor.
    - apply IH. intros x y Hx Hy. apply H; [now right|exact Hy].
    - apply Forall_app. split; [exact Ha|]. apply Forall_forall. intros y Hy. apply H; [now left|exact Hy].
  Qed.
  Lemma sorted_app_inv l1 l2 : StronglySorted R (l1 ++ l2) ->
    StronglySorted R l1 /\ StronglySorted R l2 /\ forall x y, In x l1 -> In y l2 -> R x y.
  Proof.
    induction l1 as [|a l1 IH]; cbn; intros H.
    - split; [constructor|]. split; [exact H|]. intros x y [].
    - inversion H as [|? ? H1 Ha]; subst. destruct (IH H1) as (I1 & I2 & I3). apply Forall_app in Ha as [Ha1 Ha2].
      split; [now constructor|]. split; [exact I2|]. intros x y [<-|Hx] Hy; [|now apply I3].
      rewrite Forall_forall in Ha2. now apply Ha2.
  Qed.
  Lemma sorted_before pre e post x : (forall y, ~ R y y) -> (forall y z, R y z -> ~ R z y) ->
    StronglySorted R (pre ++ e :: post) -> (In x pre <-> In x (pre ++ e :: post) /\ R x e).
  Proof.
    intros Hi Ha H. apply sorted_app_inv in H as (H1 & H2 & H3). split.
    - intros Hx. split; [apply in_or_app; now left|]. apply H3; [exact Hx|now left].
    - intros [Hx Hr]. apply in_app_or in Hx as [Hx|[<-|Hx]]; [exact Hx|destruct (Hi _ Hr)|].
      inversion H2 as [|? ? _ Hall]; subst. rewrite Forall_forall in Hall. destruct (Ha _ _ Hr). now apply Hall.
  Qed.
End Sorted.

Section Facts.
  Variable pe pp : str -> bool.
  Variable debug : str -> str.
  Notation d_item := (d_item pe pp debug).
  Notation d_items := (d_items pe pp debug).
  Notation d_loop := (d_loop pe pp debug).
  Notation d_parse := (d_parse pe pp debug).
  Notation item_action := (item_action pe pp).
  Notation wrong := (wrong pe pp debug).
  Notation complaint := (complaint pe pp debug).
  Notation sets_at := (sets_at pe pp).
  Notation get := AttrFacts.get.

  (** ** Single items *)
  Definition erase_action (a : daction) : option (option setting) :=
    match a with DIgnore => Some None | DSet _ x => Some (Some x) | DError _ _ => None end.
  Definition erase_action' (a : action) : option (option setting) :=
    match a with Ignore => Some None | Set_ x => Some (Some x) | Error _ => None end.

  Lemma d_get_ser_map j items : get_ser items = option_map (map snd) (d_get_ser j items).
  Proof.
    revert j. induction items as [|n items IH]; intros j; [reflexivity|]. cbn [get_ser d_get_ser].
    destruct n as [l|[p|p l|p its]]; try reflexivity.
    destruct (is_ident SERIALIZE p); [destruct l; [|apply IH]|destruct (is_ident DESERIALIZE p); [apply IH|reflexivity]].
    rewrite (IH (S j)). now destruct (d_get_ser (S j) items).
  Qed.
  Lemma d_get_ser_at j items v : d_get_ser j items = Some v ->
    StronglySorted lt (map fst v) /\
    forall k s, In (k, s) v <-> j <= k /\ nth_error items (k - j) = Some (name_value "serialize" (LStr s)).
  Proof.
    revert j v. induction items as [|n items IH]; intros j v.
    - intros [= <-]. split; [constructor|]. intros k s. split; [intros []|]. intros [_ H]. destruct (k - j); discriminate.
    - cbn [d_get_ser]. destruct n as [l|[p|p l|p its]]; try discriminate.
      assert (Hshift : forall k s, NMeta (MNameValue p l) <> name_value "serialize" (LStr s) ->
                (j <= k /\ nth_error (NMeta (MNameValue p l) :: items) (k - j) = Some (name_value "serialize" (LStr s)) <->
                 S j <= k /\ nth_error items (k - S j) = Some (name_value "serialize" (LStr s)))).
      { intros k s Hn. split; intros [Hle He].
        - destruct (k - j) eqn:Ek; cbn in He; [congruence|]. split; [lia|]. now replace (k - S j) with n by lia.
        - split; [lia|]. replace (k - j) with (S (k - S j)) by lia. exact He. }
      destruct (is_ident SERIALIZE p) eqn:Ep.
      + apply is_ident_iff in Ep as ->. destruct l as [s0|].
        * destruct (d_get_ser (S j) items) as [v0|] eqn:E; [|discriminate]. intros [= <-]. destruct (IH _ _ E) as [Hs Hin].
          split.
          { cbn. constructor; [exact Hs|]. apply Forall_forall. intros k Hk. apply in_map_iff in Hk as ([k' s'] & <- & Hk).
            apply Hin in Hk. cbn. lia. }
          intros k s. cbn [In]. rewrite Hin. split.
          { intros [[= <- <-]|[Hle He]]; [split; [lia|]; now rewrite PeanoNat.Nat.sub_diag|].
            split; [lia|]. replace (k - j) with (S (k - S j)) by lia. exact He. }
          { intros [Hle He]. destruct (k - j) eqn:Ek.
            - left. cbn in He. injection He as ->. f_equal. lia.
            - right. cbn in He. split; [lia|]. now replace (k - S j) with n by lia. }
        * intros E. destruct (IH _ _ E) as [Hs Hin]. split; [exact Hs|]. intros k s. rewrite Hin. symmetry. apply Hshift. discriminate.
      + destruct (is_ident DESERIALIZE p); [|discriminate]. intros E. destruct (IH _ _ E) as [Hs Hin]. split; [exact Hs|].
        intros k s. rewrite Hin. symmetry. apply Hshift. intros [= -> _]. unfold is_ident in Ep. cbn in Ep. discriminate.
  Qed.

  Lemma d_item_erase pos f n : erase_action (d_item pos f n) = erase_action' (item_action pos f n).
  Proof.
    assert (Hlit : forall w l k k', (forall s, erase_action (k s) = erase_action' (k' s)) ->
              erase_action (d_lit_str w l k) = erase_action' (with_lit_str l k')) by (intros w [s|] k k' H; cbn; auto).
    assert (Hsim : forall l k k', (forall s, erase_action (k s) = erase_action' (k' s)) ->
              erase_action (d_lit_simple l k) = erase_action' (with_lit_simple l k')) by (intros [s|] k k' H; cbn; auto).
    assert (Hren : forall items k k', (forall s, erase_action (k s) = erase_action' (k' s)) ->
              erase_action (d_renames items k) = erase_action' (with_renames items k')).
    { intros items k k' H. unfold d_renames, with_renames. rewrite (d_get_ser_map 0).
      destruct (d_get_ser 0 items) as [[|[j s] [|[j' s'] v]]|]; cbn; auto. }
    assert (Hrule : forall s, erase_action (d_set_rule s) = erase_action' (set_rule s)) by (intros s; unfold d_set_rule, set_rule; now destruct (rule_from_str s)).
    assert (Hexp : forall l, erase_action (d_example_with pe debug l) = erase_action' (set_example_with pe l)).
    { intros l. apply Hlit. intros s. now destruct (pe s). }
    assert (Hskip : forall l, erase_action (d_skip_if pp debug l) = erase_action' (set_skip_if pp l)).
    { intros l. apply Hlit. intros s. now destruct (pp s). }
    assert (Hcom : erase_action (d_opg_common pe debug n) = erase_action' (opg_common pe n)).
    { destruct n as [l|[p|p l|p its]]; cbn [d_opg_common opg_common]; [now apply Hsim| | |reflexivity].
      - now destruct (explicit_from_path p).
      - destruct (is_ident FORMAT p); [now apply Hlit|]. destruct (is_ident EXAMPLE p); [now apply Hlit|].
        destruct (is_ident EXAMPLE_WITH p); [apply Hexp|reflexivity]. }
    assert (Hr : forall k k', erase_action k = erase_action' k' -> erase_action (d_serde_rename n k) = erase_action' (serde_rename n k')).
    { intros k k' H. destruct n as [l|[p|p l|p its]]; cbn [d_serde_rename serde_rename]; try exact H;
        (destruct (is_ident RENAME p); [|exact H]); [now apply Hlit|now apply Hren]. }
    assert (Hra : forall k k', erase_action k = erase_action' k' -> erase_action (d_serde_rename_all n k) = erase_action' (serde_rename_all n k')).
    { intros k k' H. destruct n as [l|[p|p l|p its]]; cbn [d_serde_rename_all serde_rename_all]; try exact H;
        (destruct (is_ident RENAME_ALL p); [|exact H]); [now apply Hlit|now apply Hren]. }
    destruct pos as [k| |]; cbn [Diag.d_item Attr.item_action]; destruct f; cbn [d_container_item container_item d_variant_item variant_item d_field_item field_item]; try reflexivity.
    - apply Hr, Hra. destruct n as [l|[p|p l|p its]]; try reflexivity.
      + destruct (is_ident TRANSPARENT p); [reflexivity|]. destruct (is_ident UNTAGGED p); [now destruct k|reflexivity].
      + destruct (is_ident TAG p); [apply Hsim; intros s; now destruct k|]. destruct (is_ident CONTENT p); [apply Hsim; intros s; now destruct k|reflexivity].
    - destruct n as [l|[p|p l|p its]]; try exact Hcom. destruct (is_ident INLINE p); [reflexivity|]. destruct (is_ident NULLABLE p); [reflexivity|exact Hcom].
    - apply Hr, Hra. destruct n as [l|[p|p l|p its]]; try reflexivity. now destruct (is_ident SKIP p || is_ident SKIP_SERIALIZING p).
    - destruct n as [l|[p|p l|p its]]; try exact Hcom. destruct (is_ident INLINE p); [reflexivity|exact Hcom].
    - apply Hr. destruct n as [l|[p|p l|p its]]; try reflexivity.
      + destruct (is_ident SKIP p || is_ident SKIP_SERIALIZING p); [reflexivity|]. now destruct (is_ident FLATTEN p).
      + destruct (is_ident SKIP_SERIALIZING_IF p); [apply Hskip|reflexivity].
    - destruct n as [l|[p|p l|p its]]; try exact Hcom. destruct (is_ident OPTIONAL p); [reflexivity|]. destruct (is_ident INLINE p); [reflexivity|].
      destruct (is_ident NULLABLE p); [reflexivity|exact Hcom].
  Qed.

  Lemma says_d_item pos f n x : says pe pp pos f n x -> d_item pos f n = DSet (pointed (key_of x)) x.
  Proof.
    intros Hs. assert (He := d_item_erase pos f n). rewrite (says_action _ _ _ _ _ _ Hs) in He.
    destruct (d_item pos f n) as [|p y|p y] eqn:E; try discriminate. injection He as ->. f_equal.
    destruct Hs;
      repeat match goal with
      | H : has_children _ |- _ => destruct H as [[? ->]| ->]
      | H : skippable _ |- _ => destruct H as [-> | ->]
      | H : can_be_nullable _ |- _ => destruct H as [[? ->]| ->]
      | H : In (_, _) rule_spellings |- _ => apply rule_iff in H
      | p : position |- _ => destruct p
      end; try destruct k; revert E; cbn; unfold d_renames, d_set_rule;
      repeat match goal with H : _ = _ |- _ => rewrite H end;
      try (destruct (d_get_ser 0 items) as [[|[? ?] [|[? ?] ?]]|]); try (destruct (rule_from_str s0)); try (destruct (rule_from_str s));
      try congruence.
  Qed.
  Lemma d_item_says pos f n p x : d_item pos f n = DSet p x -> says pe pp pos f n x /\ p = pointed (key_of x).
  Proof.
    intros E. assert (He := d_item_erase pos f n). rewrite E in He.
    destruct (item_action pos f n) as [|y|y] eqn:Ea; try discriminate. injection He as ->.
    apply action_says in Ea. split; [exact Ea|]. apply says_d_item in Ea. congruence.
  Qed.

  Lemma second_of_get items j1 s1 j s v : d_get_ser 0 items = Some ((j1, s1) :: (j, s) :: v) -> second_string items j.
  Proof.
    intros H. destruct (d_get_ser_at _ _ _ H) as [Hs Hin]. cbn in Hs. inversion Hs as [|? ? H1 H2]; subst.
    inversion H1 as [|? ? _ H3]; subst. inversion H2 as [|? ? H4 _]; subst.
    assert (Hat : forall k, serialize_string_at items k <-> exists x, In (k, x) ((j1, s1) :: (j, s) :: v)).
    { intros k. split; intros [x Hx]; exists x.
      - apply Hin. split; [lia|]. now replace (k - 0) with k by lia.
      - apply Hin in Hx as [_ Hx]. now replace (k - 0) with k in Hx by lia. }
    split; [apply Hat; exists s; right; now left|]. exists j1. split; [exact H4|]. split; [apply Hat; exists s1; now left|].
    intros j2 Hlt H5. apply Hat in H5 as [x [[= <- _]|[[= <- _]|Hx]]]; [reflexivity|lia|].
    rewrite Forall_forall in H3. apply (in_map fst) in Hx. apply H3 in Hx. cbn in Hx. lia.
  Qed.
  Lemma second_unique items j j' : second_string items j -> second_string items j' -> j = j'.
  Proof.
    intros [H1 (k & Hk & Hk1 & Hk2)] [H1' (k' & Hk' & Hk1' & Hk2')].
    destruct (Compare_dec.lt_eq_lt_dec j j') as [[H|H]|H]; [|exact H|].
    - assert (j = k') by (apply Hk2'; assumption). subst k'. assert (k = j) by (apply Hk2'; [lia|exact Hk1]). lia.
    - assert (j' = k) by (apply Hk2; assumption). subst k. assert (k' = j') by (apply Hk2; [lia|exact Hk1']). lia.
  Qed.
  Lemma renames_two items ss k : serialize_strings items ss ->
    (forall j, second_string items j -> d_renames items k = DError (PaNested j) (duplicate_text RENAME)) /\
    (2 <= length ss -> exists j, second_string items j).
  Proof.
    intros Hss. apply get_ser_iff in Hss. rewrite (d_get_ser_map 0) in Hss. unfold d_renames.
    destruct (d_get_ser 0 items) as [[|[j1 s1] [|[j s] v]]|] eqn:E; cbn in Hss; try discriminate; injection Hss as <-.
    - split; [|cbn; lia]. intros j [[s Hs] _]. exfalso. destruct (d_get_ser_at _ _ _ E) as [_ Hin]. apply (Hin j s).
      split; [lia|]. now replace (j - 0) with j by lia.
    - split; [|cbn; lia]. intros j [[s Hs] (k1 & Hlt & [s' Hs'] & _)]. exfalso. destruct (d_get_ser_at _ _ _ E) as [_ Hin].
      assert (H1 : In (j, s) [(j1, s1)]) by (apply Hin; split; [lia|]; now replace (j - 0) with j by lia).
      assert (H2 : In (k1, s') [(j1, s1)]) by (apply Hin; split; [lia|]; now replace (k1 - 0) with k1 by lia).
      destruct H1 as [[= <- _]|[]]. destruct H2 as [[= <- _]|[]]. lia.
    - assert (Hsec := second_of_get _ _ _ _ _ _ E). split; [|intros _; now exists j].
      intros j' Hj'. now rewrite (second_unique _ _ _ Hj' Hsec).
  Qed.

  Lemma path_written_text p s : path_written p s <-> s = path_text p.
  Proof.
    assert (H : forall l x, joined l x <-> x = match l with [] => [] | y :: l' => y ++ flat_map (fun z => u "::" ++ z) l' end).
    { induction l as [|y [|z l] IH]; intros x.
      - split; [inversion 1; reflexivity|intros ->; constructor].
      - cbn [flat_map]. rewrite app_nil_r. split; [inversion 1; reflexivity|intros ->; constructor].
      - split.
        + inversion 1 as [| |? ? ? s0 Hj]; subst. apply IH in Hj as ->. reflexivity.
        + intros ->. cbn [flat_map]. rewrite <- !app_assoc. apply jo_more. apply IH. reflexivity. }
    unfold path_written, path_text. split.
    - intros (segs & Hj & ->). apply H in Hj as ->. reflexivity.
    - intros ->. eexists. split; [|reflexivity]. now apply H.
  Qed.

  Lemma unknown_word_item pos p : unknown_opg pos (NMeta (MPath p)) -> d_item pos FromOpg (NMeta (MPath p)) = DError PaPath (u "unknown attribute").
  Proof.
    intros Hu. inversion Hu as [? Hp| |]; subst. pose proof (not_known _ _ Hp) as H.
    destruct pos; cbn [Diag.d_item d_container_item d_variant_item d_field_item d_opg_common]; unfold explicit_from_path;
      repeat (match goal with |- context [is_ident ?n p] =>
        replace (is_ident n p) with false; [cbn iota | symmetry; first
          [ apply (H "string"%string); cbn; tauto | apply (H "number"%string); cbn; tauto
          | apply (H "integer"%string); cbn; tauto | apply (H "boolean"%string); cbn; tauto
          | apply (H "any"%string); cbn; tauto | apply (H "inline"%string); cbn; tauto
          | apply (H "nullable"%string); cbn; tauto | apply (H "optional"%string); cbn; tauto ]] end); reflexivity.
  Qed.
  Lemma unknown_key_item pos p l : unknown_opg pos (NMeta (MNameValue p l)) -> d_item pos FromOpg (NMeta (MNameValue p l)) = DError PaPath (unknown_text p).
  Proof.
    intros Hu. inversion Hu as [|? ? Hp|]; subst. pose proof (not_known _ _ Hp) as H.
    destruct pos; cbn [Diag.d_item d_container_item d_variant_item d_field_item d_opg_common];
      repeat (match goal with |- context [is_ident ?n p] =>
        replace (is_ident n p) with false; [cbn iota | symmetry; first
          [ apply (H "format"%string); cbn; tauto | apply (H "example"%string); cbn; tauto
          | apply (H "example_with"%string); cbn; tauto ]] end); reflexivity.
  Qed.

  Lemma wrong_d_item pos f n p s : wrong pos f n p s -> d_item pos f n = DError p s.
  Proof.
    destruct 1 as [w Hw|w Hw|s Hs|s -> Hs|w items ss j Hw Hss Hj|p Hu|p l s Hu Hs|p items s Hs].
    - cbn in Hw. destruct pos; repeat (destruct Hw as [<- | Hw]; [reflexivity|]); destruct Hw.
    - destruct Hw as [->|[[-> Hc]|[-> ->]]]; [destruct pos; reflexivity| |reflexivity].
      destruct Hc as [[? ->]| ->]; reflexivity.
    - destruct pos; cbn; now rewrite Hs.
    - cbn. now rewrite Hs.
    - destruct Hw as [->|[-> Hc]].
      + destruct pos; cbn; now rewrite (proj1 (renames_two _ _ _ Hss) j Hj).
      + destruct Hc as [[? ->]| ->]; cbn; now rewrite (proj1 (renames_two _ _ _ Hss) j Hj).
    - now apply unknown_word_item.
    - apply path_written_text in Hs as ->. rewrite (unknown_key_item _ _ _ Hu). reflexivity.
    - apply path_written_text in Hs as ->. destruct pos; reflexivity.
  Qed.
  Lemma malformed_wrong pos f n : malformed pe pp pos f n -> exists p s, wrong pos f n p s.
  Proof.
    destruct 1 as [w Hw| |H|H|s Hs|s H Hs|items a b ss H|items a b ss Hc H|n Hu].
    - do 2 eexists. now apply wr_opg_value.
    - do 2 eexists. apply wr_serde_value. now left.
    - do 2 eexists. apply wr_serde_value. right. now left.
    - do 2 eexists. apply wr_serde_value. right. now right.
    - do 2 eexists. now apply wr_expr.
    - do 2 eexists. now apply wr_path.
    - destruct (proj2 (renames_two _ _ (fun _ => DIgnore) H)) as [j Hj]; [cbn; lia|]. do 2 eexists. eapply wr_renames; [now left|eassumption|eassumption].
    - destruct (proj2 (renames_two _ _ (fun _ => DIgnore) H)) as [j Hj]; [cbn; lia|]. do 2 eexists. eapply wr_renames; [right; now split|eassumption|eassumption].
    - destruct n as [l|[p|p l|p items]]; [inversion Hu| | |].
      + do 2 eexists. now apply wr_word.
      + do 2 eexists. apply wr_key; [exact Hu|]. now apply path_written_text.
      + do 2 eexists. apply wr_list. now apply path_written_text.
  Qed.
  Lemma d_item_wrong pos f n p s : d_item pos f n = DError p s <-> wrong pos f n p s.
  Proof.
    split; [|apply wrong_d_item]. intros E. assert (He := d_item_erase pos f n). rewrite E in He.
    destruct (item_action pos f n) as [|y|y] eqn:Ea; try discriminate.
    apply action_malformed, malformed_wrong in Ea as (p' & s' & Hw). assert (H := wrong_d_item _ _ _ _ _ Hw). congruence.
  Qed.

  (** ** Attributes as sequences of events *)
  Inductive event := EvMeta (a : nat) (f : attr_from) | EvSyn (a : nat) | EvItem (a i : nat) (f : attr_from) (n : nested).
  Definition pos_of (e : event) : nat * nat := match e with EvMeta a _ | EvSyn a => (a, 0) | EvItem a i _ _ => (a, i) end.
  Definition before (e1 e2 : event) : Prop := earlier (fst (pos_of e1)) (snd (pos_of e1)) (fst (pos_of e2)) (snd (pos_of e2)).
  Fixpoint item_events (a : nat) (f : attr_from) (i : nat) (items : list nested) : list event :=
    match items with [] => [] | n :: rest => EvItem a i f n :: item_events a f (S i) rest end.
  Definition attr_events (a : nat) (x : attribute) : list event :=
    match from_of x with
    | None => []
    | Some f => match at_meta x with PmList items => item_events a f 0 items | PmOther => [EvMeta a f] | PmErr => [EvSyn a] end
    end.
  Fixpoint events (a : nat) (l : list attribute) : list event :=
    match l with [] => [] | x :: rest => attr_events a x ++ events (S a) rest end.

  Lemma from_of_belongs x f : from_of x = Some f <-> belongs x f.
  Proof.
    unfold from_of. split.
    - destruct (is_ident OPG (at_path x)) eqn:E1.
      { apply is_ident_iff in E1. intros [= <-]. now constructor. }
      destruct (is_ident SERDE (at_path x)) eqn:E2.
      { apply is_ident_iff in E2. intros [= <-]. now constructor. }
      destruct (is_ident REPR (at_path x)) eqn:E3; [|discriminate].
      apply is_ident_iff in E3. intros [= <-]. now constructor.
    - destruct 1 as [H|H|H]; rewrite H; reflexivity.
  Qed.
  Lemma in_item_events e a f i items :
    In e (item_events a f i items) <-> exists j n, i <= j /\ nth_error items (j - i) = Some n /\ e = EvItem a j f n.
  Proof.
    revert i. induction items as [|n items IH]; intros i; cbn [item_events In].
    - split; [intros []|]. intros (j & n & _ & H & _). destruct (j - i); discriminate.
    - rewrite IH. split.
      + intros [<-|(j & n' & Hle & Hn & ->)].
        * exists i, n. split; [lia|]. now rewrite PeanoNat.Nat.sub_diag.
        * exists j, n'. split; [lia|]. replace (j - i) with (S (j - S i)) by lia. now split.
      + intros (j & n' & Hle & Hn & ->). destruct (j - i) eqn:Ej; cbn in Hn.
        * left. injection Hn as ->. f_equal. lia.
        * right. exists j, n'. split; [lia|]. now replace (j - S i) with n0 by lia.
  Qed.
  Lemma in_events e a l : In e (events a l) <-> exists b x, a <= b /\ nth_error l (b - a) = Some x /\ In e (attr_events b x).
  Proof.
    revert a. induction l as [|y l IH]; intros a; cbn [events].
    - split; [intros []|]. intros (b & x & _ & H & _). destruct (b - a); discriminate.
    - rewrite in_app_iff, IH. split.
      + intros [H|(b & x & Hle & Hn & Hi)].
        * exists a, y. split; [lia|]. now rewrite PeanoNat.Nat.sub_diag.
        * exists b, x. split; [lia|]. replace (b - a) with (S (b - S a)) by lia. now split.
      + intros (b & x & Hle & Hn & Hi). destruct (b - a) eqn:Eb; cbn in Hn.
        * left. injection Hn as ->. now replace a with b by lia.
        * right. exists b, x. split; [lia|]. now replace (b - S a) with n by lia.
  Qed.
  Lemma events_item l a i f n : In (EvItem a i f n) (events 0 l) <-> item_at l a i f n.
  Proof.
    rewrite in_events. unfold item_at, attr_events. split.
    - intros (b & x & _ & Hn & Hi). destruct (from_of x) as [f0|] eqn:Ef; [|destruct Hi].
      destruct (at_meta x) as [items| |] eqn:Em; try (destruct Hi as [[=]|[]]).
      apply in_item_events in Hi as (j & n0 & _ & Hn' & [= <- <- <- <-]). rewrite PeanoNat.Nat.sub_0_r in Hn, Hn'.
      exists x, items. apply from_of_belongs in Ef. now repeat split.
    - intros (x & items & Hn & Hb & Hm & Hi). exists a, x. split; [lia|]. rewrite PeanoNat.Nat.sub_0_r. split; [exact Hn|].
      apply from_of_belongs in Hb. rewrite Hb, Hm. apply in_item_events. exists i, n. rewrite PeanoNat.Nat.sub_0_r. repeat split; [lia|exact Hi].
  Qed.
  Lemma events_meta l a f : In (EvMeta a f) (events 0 l) <-> exists x, nth_error l a = Some x /\ belongs x f /\ at_meta x = PmOther.
  Proof.
    rewrite in_events. unfold attr_events. split.
    - intros (b & x & _ & Hn & Hi). destruct (from_of x) as [f0|] eqn:Ef; [|destruct Hi].
      destruct (at_meta x) as [items| |] eqn:Em.
      + apply in_item_events in Hi as (j & n0 & _ & Hn' & [=]).
      + destruct Hi as [[= <- <-]|[]]. rewrite PeanoNat.Nat.sub_0_r in Hn. exists x. apply from_of_belongs in Ef. now repeat split.
      + destruct Hi as [[=]|[]].
    - intros (x & Hn & Hb & Hm). exists a, x. split; [lia|]. rewrite PeanoNat.Nat.sub_0_r. split; [exact Hn|].
      apply from_of_belongs in Hb. rewrite Hb, Hm. now left.
  Qed.
  Lemma events_syn l a : In (EvSyn a) (events 0 l) <-> exists x f, nth_error l a = Some x /\ belongs x f /\ at_meta x = PmErr.
  Proof.
    rewrite in_events. unfold attr_events. split.
    - intros (b & x & _ & Hn & Hi). destruct (from_of x) as [f0|] eqn:Ef; [|destruct Hi].
      destruct (at_meta x) as [items| |] eqn:Em.
      + apply in_item_events in Hi as (j & n0 & _ & Hn' & [=]).
      + destruct Hi as [[=]|[]].
      + destruct Hi as [[= <-]|[]]. rewrite PeanoNat.Nat.sub_0_r in Hn. exists x, f0. apply from_of_belongs in Ef. now repeat split.
    - intros (x & f & Hn & Hb & Hm). exists a, x. split; [lia|]. rewrite PeanoNat.Nat.sub_0_r. split; [exact Hn|].
      apply from_of_belongs in Hb. rewrite Hb, Hm. now left.
  Qed.

  Lemma item_events_sorted a f i items : StronglySorted before (item_events a f i items).
  Proof.
    revert i. induction items as [|n items IH]; intros i; cbn; constructor; [apply IH|].
    apply Forall_forall. intros e He. apply in_item_events in He as (j & n' & Hle & _ & ->). right. cbn. split; [reflexivity|lia].
  Qed.
  Lemma attr_events_at a x e : In e (attr_events a x) -> fst (pos_of e) = a.
  Proof.
    unfold attr_events. destruct (from_of x) as [f|]; [|intros []]. destruct (at_meta x) as [items| |].
    - intros He. apply in_item_events in He as (j & n & _ & _ & ->). reflexivity.
    - intros [<-|[]]. reflexivity.
    - intros [<-|[]]. reflexivity.
  Qed.
  Lemma events_sorted a l : StronglySorted before (events a l).
  Proof.
    revert a. induction l as [|x l IH]; intros a; [constructor|]. cbn [events]. apply sorted_app; [|apply IH|].
    - unfold attr_events. destruct (from_of x) as [f|]; [|constructor].
      destruct (at_meta x) as [items| |]; [apply item_events_sorted| |]; repeat constructor.
    - intros e1 e2 H1 H2. apply attr_events_at in H1. apply in_events in H2 as (b & y & Hle & _ & H2). apply attr_events_at in H2.
      left. lia.
  Qed.
  Lemma before_irr e : ~ before e e.
  Proof. unfold before, earlier. lia. Qed.
  Lemma before_asym e1 e2 : before e1 e2 -> ~ before e2 e1.
  Proof. unfold before, earlier. lia. Qed.

  (** ** The loops on events *)
  Definition set_pure (here : place) (x : setting) (v : vars) : vars * list diag :=
    ((fst (assign x (fst v)),
      match x with SType _ => if Nat.eqb (length (s_types (fst v))) 1 then here else snd v | _ => snd v end),
     if snd (assign x (fst v)) then [own here (duplicate_text (symbol_of x))] else []).
  Lemma d_set_logs here x v : logs (d_set here x v) (fst (set_pure here x v)) (snd (set_pure here x v)).
  Proof.
    destruct v as [s dup]. unfold set_pure, d_set. cbn [fst snd]. destruct x;
      try (destruct (assign _ s) as [s' []]; cbn [fst snd]; [eapply logs_then; [apply logs_report|apply logs_ret]|apply logs_ret]).
    destruct s. cbn [assign fst snd]. apply logs_ret.
  Qed.
  Definition step_ev (o : owner) (pos : position) (e : event) (v : vars) : vars * list diag :=
    match e with
    | EvMeta a f => (v, [own (AtMeta o a) (not_list_text f)])
    | EvSyn a => (v, [{| dg_at := AtSyntax o a; dg_text := Syn |}])
    | EvItem a i f n =>
        match d_item pos f n with
        | DIgnore => (v, [])
        | DSet p x => set_pure (AtPart o a i p) x v
        | DError p s => (v, [own (AtPart o a i p) s])
        end
    end.
  Fixpoint run (o : owner) (pos : position) (l : list event) (v : vars) : vars * list diag :=
    match l with
    | [] => (v, [])
    | e :: l' => (fst (run o pos l' (fst (step_ev o pos e v))), snd (step_ev o pos e v) ++ snd (run o pos l' (fst (step_ev o pos e v))))
    end.
  Lemma run_app o pos l1 l2 v :
    run o pos (l1 ++ l2) v = (fst (run o pos l2 (fst (run o pos l1 v))), snd (run o pos l1 v) ++ snd (run o pos l2 (fst (run o pos l1 v)))).
  Proof.
    revert v. induction l1 as [|e l1 IH]; intros v; cbn [app run fst snd]; [now destruct (run o pos l2 v)|].
    rewrite IH. cbn [fst snd]. now rewrite app_assoc.
  Qed.
  Lemma run_in o pos l v d : In d (snd (run o pos l v)) <->
    exists pre e post, l = pre ++ e :: post /\ In d (snd (step_ev o pos e (fst (run o pos pre v)))).
  Proof.
    revert v. induction l as [|e l IH]; intros v; cbn [run snd].
    - split; [intros []|]. intros (pre & e & post & H & _). destruct pre; discriminate.
    - rewrite in_app_iff, IH. split.
      + intros [H|(pre & e' & post & -> & H)]; [exists [], e, l; now split|]. exists (e :: pre), e', post. now split.
      + intros ([|e0 pre] & e' & post & H & Hd); cbn in H; injection H as -> ->; [now left|]. right. now exists pre, e', post.
  Qed.

  Lemma d_items_logs o pos a f i items v :
    logs (d_items o pos a f i items v) (fst (run o pos (item_events a f i items) v)) (snd (run o pos (item_events a f i items) v)).
  Proof.
    revert i v. induction items as [|n items IH]; intros i v; [apply logs_ret|]. cbn [Diag.d_items item_events run].
    eapply logs_bind; [|apply IH]. cbn [step_ev]. destruct (d_item pos f n) as [|p x|p s]; cbn [fst snd].
    - apply logs_ret.
    - apply d_set_logs.
    - eapply logs_then; [apply logs_report|apply logs_ret].
  Qed.
  Lemma d_loop_logs o pos a l v : logs (d_loop o pos a l v) (fst (run o pos (events a l) v)) (snd (run o pos (events a l) v)).
  Proof.
    revert a v. induction l as [|x l IH]; intros a v; [apply logs_ret|]. cbn [Diag.d_loop events]. rewrite run_app.
    eapply logs_bind; [|apply IH]. unfold attr_events. destruct (from_of x) as [f|]; [|apply logs_ret].
    destruct (at_meta x) as [items| |]; [apply d_items_logs| |]; (eapply logs_then; [apply logs_report|apply logs_ret]).
  Qed.

  (** *** against the loops of Attr.v *)
  Definition entry_of (e : event) : entry := match e with EvMeta _ _ => Bad ENotList | EvSyn _ => Bad ESyntax | EvItem _ _ f n => Item f n end.
  Lemma item_events_entries a f i items : map entry_of (item_events a f i items) = map (Item f) items.
  Proof. revert i. induction items as [|n items IH]; intros i; [reflexivity|]. cbn. now rewrite IH. Qed.
  Lemma events_entries a l : map entry_of (events a l) = flat_map get_meta_items l.
  Proof.
    revert a. induction l as [|x l IH]; intros a; [reflexivity|]. cbn [events flat_map]. rewrite map_app, IH. f_equal.
    unfold attr_events, get_meta_items. fold (from_of x). destruct (from_of x) as [f|]; [|reflexivity].
    destruct (at_meta x); [apply item_events_entries| |]; reflexivity.
  Qed.
  Lemma run_step o pos l v es : let r := fold_left (step pe pp pos) (map entry_of l) (fst v, es) in
    fst (fst (run o pos l v)) = fst r /\ length es + length (snd (run o pos l v)) = length (snd r).
  Proof.
    revert v es. induction l as [|e l IH]; intros v es; [cbn; split; [reflexivity|lia]|]. cbn [map fold_left run fst snd].
    rewrite app_length.
    assert (Hs : step pe pp pos (fst v, es) (entry_of e) =
              (fst (fst (step_ev o pos e v)), snd (step pe pp pos (fst v, es) (entry_of e))) /\
              length (snd (step pe pp pos (fst v, es) (entry_of e))) = length es + length (snd (step_ev o pos e v))).
    { destruct e as [a f|a|a i f n]; cbn [entry_of step step_ev fst snd]; try (split; [reflexivity|rewrite app_length; reflexivity]).
      assert (He := d_item_erase pos f n). destruct (d_item pos f n), (item_action pos f n); try discriminate; cbn [fst snd].
      - split; [reflexivity|cbn; lia].
      - injection He as <-. unfold set_pure. destruct (assign x (fst v)) as [s' []]; cbn [fst snd]; split; try reflexivity; [now rewrite app_length|cbn; lia].
      - split; [reflexivity|now rewrite app_length]. }
    destruct Hs as [Hs Hl]. rewrite Hs. destruct (IH (fst (step_ev o pos e v)) (snd (step pe pp pos (fst v, es) (entry_of e)))) as [H1 H2].
    split; [exact H1|]. lia.
  Qed.

  (** ** What the variables hold after some events *)
  Definition start : vars := (no_slots, AtNothing).
  Definition ev_set (pos : position) (e : event) : option setting :=
    match e with EvItem _ _ f n => match d_item pos f n with DSet _ x => Some x | _ => None end | _ => None end.
  Definition sets_key (pos : position) (k : key) (e : event) : Prop := exists x, ev_set pos e = Some x /\ key_of x = k.
  Lemma sets_at_iff pos l a i k : sets_at pos l a i k <-> exists e, In e (events 0 l) /\ sets_key pos k e /\ pos_of e = (a, i).
  Proof.
    unfold DiagSpec.sets_at, sets_key. split.
    - intros (f & n & x & Hi & Hs & Hk). exists (EvItem a i f n). split; [now apply events_item|]. split; [|reflexivity].
      exists x. cbn. rewrite (says_d_item _ _ _ _ Hs). now split.
    - intros ([b f|b|b j f n] & Hin & (x & Hx & Hk) & Hp); cbn in Hx; try discriminate. cbn in Hp. injection Hp as -> ->.
      destruct (d_item pos f n) as [|p y|p y] eqn:E; try discriminate. injection Hx as ->.
      exists f, n, x. split; [now apply events_item|]. split; [|exact Hk]. eapply d_item_says; eassumption.
  Qed.

  Lemma step_slots o pos e v : fst (fst (step_ev o pos e v)) =
    match ev_set pos e with Some x => fst (assign x (fst v)) | None => fst v end.
  Proof. destruct e as [a f|a|a i f n]; try reflexivity. cbn. now destruct (d_item pos f n). Qed.
  Lemma run_get o pos l k : k <> KType ->
    (get k (fst (fst (run o pos l start))) <> [] <-> exists e, In e l /\ sets_key pos k e).
  Proof.
    intros Hk. induction l as [|e l IH] using rev_ind.
    - cbn [run fst start]. rewrite get_no_slots. split; [congruence|]. intros (e & [] & _).
    - rewrite run_app. cbn [run fst snd]. rewrite step_slots. set (v := fst (run o pos l start)) in *.
      assert (Hsplit : (exists e', In e' (l ++ [e]) /\ sets_key pos k e') <-> (exists e', In e' l /\ sets_key pos k e') \/ sets_key pos k e).
      { split.
        - intros (e' & Hin & Hs). apply in_app_or in Hin as [Hin|[<-|[]]]; [left; now exists e'|now right].
        - intros [(e' & Hin & Hs)|Hs]; [exists e'|exists e]; (split; [apply in_or_app|exact Hs]); [now left|right; now left]. }
      rewrite Hsplit, <- IH. unfold sets_key. destruct (ev_set pos e) as [x|]; cycle 1.
      { split; [now left|]. intros [H|(x & [=] & _)]. exact H. }
      rewrite assign_get. destruct (key_eq_dec (key_of x) k) as [E|E].
      + destruct (key_eq_dec k KType) as [->|_]; [congruence|]. split; [intros _; right; now exists x|].
        intros _. now destruct (get k (fst v)).
      + split; [now left|]. intros [H|(y & [= <-] & Hy)]; [exact H|congruence].
  Qed.

  Definition is_type (pos : position) (e : event) : bool :=
    match ev_set pos e with Some x => if key_eq_dec (key_of x) KType then true else false | None => false end.
  Lemma is_type_iff pos e : is_type pos e = true <-> sets_key pos KType e.
  Proof.
    unfold is_type, sets_key. destruct (ev_set pos e) as [x|].
    - destruct (key_eq_dec (key_of x) KType) as [E|E]; split; try congruence; intros H; [now exists x|destruct H as (y & [= <-] & Hy); congruence].
    - split; [discriminate|]. intros (x & [=] & _).
  Qed.
  Definition place_of (o : owner) (e : event) (p : part) : place := AtPart o (fst (pos_of e)) (snd (pos_of e)) p.
  Lemma run_types o pos l : let v := fst (run o pos l start) in
    let ts := filter (is_type pos) l in
    length (s_types (fst v)) = length ts /\
    snd v = match ts with _ :: e :: _ => place_of o e PaPath | _ => AtNothing end.
  Proof.
    cbn zeta. induction l as [|e l [IH1 IH2]] using rev_ind; [now split|].
    rewrite run_app, filter_app. cbn [run fst snd]. set (v := fst (run o pos l start)) in *. set (ts := filter (is_type pos) l) in *.
    cbn [filter]. unfold is_type. destruct e as [a f|a|a i f n]; cbn [ev_set step_ev fst]; try (rewrite app_nil_r; now split).
    destruct (d_item pos f n) as [|p x|p y] eqn:E; cbn [fst]; try (rewrite app_nil_r; now split).
    destruct (d_item_says _ _ _ _ _ E) as [_ ->]. destruct (key_eq_dec (key_of x) KType) as [Ek|Ek].
    - destruct x; try discriminate Ek. cbn [set_pure fst snd]. destruct (fst v) as [? ? ? ? ? ? ? ? ? ? ? ? ? ? ? ? tys] eqn:Ev.
      cbn [assign fst s_types] in *. rewrite !app_length, IH1. split; [reflexivity|].
      destruct (PeanoNat.Nat.eqb_spec (length ts) 1) as [H|H].
      + destruct ts as [|t1 [|t2 ts]]; try discriminate. reflexivity.
      + rewrite IH2. destruct ts as [|t1 [|t2 ts]]; cbn in *; [reflexivity|lia|reflexivity].
    - rewrite app_nil_r. cbn [set_pure fst snd].
      assert (Ht : s_types (fst (assign x (fst v))) = s_types (fst v)).
      { destruct (fst v), x; cbn [assign]; try (match goal with |- context [attr_set ?o _] => destruct o; reflexivity end). now destruct Ek. }
      rewrite Ht. split; [exact IH1|]. destruct x; try exact IH2. now destruct Ek.
  Qed.

  (** ** All errors of one owner *)
  Definition type_diags (o : owner) (pos : position) (l : list event) : list diag :=
    match filter (is_type pos) l with
    | _ :: e :: _ => [own (place_of o e PaPath) (u "duplicate opg attribute")]
    | _ => []
    end.
  Definition owner_diags (o : owner) (pos : position) (l : list attribute) : list diag :=
    snd (run o pos (events 0 l) start) ++ type_diags o pos (events 0 l).

  Lemma duplicate_name x : key_of x <> KType ->
    duplicate_text (symbol_of x) = in_quotes "duplicate opg attribute " (u (key_name (key_of x))).
  Proof. intros _. destruct x; reflexivity. Qed.
  Lemma not_list_name f : not_list_text f = u ("expected #[" ++ source_name_of f ++ "(...)]").
  Proof. destruct f; reflexivity. Qed.

  Lemma step_diags o pos l pre e post d : events 0 l = pre ++ e :: post ->
    In d (snd (step_ev o pos e (fst (run o pos pre start)))) -> complaint o pos l d.
  Proof.
    intros El. assert (Hin : In e (events 0 l)) by (rewrite El; apply in_or_app; right; now left).
    destruct e as [a f|a|a i f n]; cbn [step_ev snd].
    - intros [<-|[]]. rewrite not_list_name. apply events_meta in Hin as (x & Hx & Hb & Hm). eapply co_not_list; eassumption.
    - intros [<-|[]]. apply events_syn in Hin as (x & f & Hx & Hb & Hm). eapply co_syntax; eassumption.
    - destruct (d_item pos f n) as [|p x|p s] eqn:E; cbn [snd].
      + intros [].
      + unfold set_pure. cbn [snd]. destruct (snd (assign x _)) eqn:Ed; [|intros []]. intros [<-|[]].
        apply assign_dup in Ed as [Hk Hg]. apply run_get in Hg as (e1 & Hin1 & Hs1); [|exact Hk].
        destruct (d_item_says _ _ _ _ _ E) as [_ ->]. rewrite (duplicate_name _ Hk).
        assert (Hb : In e1 (pre ++ EvItem a i f n :: post) /\ before e1 (EvItem a i f n)).
        { apply (sorted_before before); [apply before_irr|apply before_asym|rewrite <- El; apply events_sorted|exact Hin1]. }
        rewrite <- El in Hb. destruct Hb as [Hin1' Hb].
        apply co_repeated with (a1 := fst (pos_of e1)) (i1 := snd (pos_of e1)); [| |exact Hb|exact Hk].
        * apply sets_at_iff. exists e1. split; [exact Hin1'|]. split; [exact Hs1|]. now destruct (pos_of e1).
        * apply sets_at_iff. exists (EvItem a i f n). split; [exact Hin|]. split; [|reflexivity]. exists x. cbn. now rewrite E.
      + intros [<-|[]]. apply d_item_wrong in E. apply events_item in Hin. eapply co_item; eassumption.
  Qed.

  Lemma filter_in_sorted {X} (R : X -> X -> Prop) f l : StronglySorted R l -> StronglySorted R (filter f l).
  Proof.
    induction 1 as [|x l H IH Hx]; [constructor|]. cbn. destruct (f x); [|exact IH]. constructor; [exact IH|].
    apply Forall_forall. intros y Hy. apply filter_In in Hy as [Hy _]. rewrite Forall_forall in Hx. now apply Hx.
  Qed.

  Lemma owner_diags_iff o pos l d : In d (owner_diags o pos l) <-> complaint o pos l d.
  Proof.
    unfold owner_diags. rewrite in_app_iff, run_in.
    assert (Hts := filter_in_sorted before (is_type pos) _ (events_sorted 0 l)).
    assert (Hmem : forall e, In e (filter (is_type pos) (events 0 l)) <-> In e (events 0 l) /\ sets_key pos KType e)
      by (intros e; now rewrite filter_In, is_type_iff).
    split.
    - intros [(pre & e & post & El & Hd)|Hd]; [eapply step_diags; eassumption|].
      unfold type_diags in Hd. destruct (filter (is_type pos) (events 0 l)) as [|e1 [|e2 ts]]; [destruct Hd|destruct Hd|].
      destruct Hd as [<-|[]].
      + inversion Hts as [|? ? Hts2 H1]; subst. inversion H1 as [|? ? Hb _]; subst.
        apply co_types with (a1 := fst (pos_of e1)) (i1 := snd (pos_of e1)).
        * apply sets_at_iff. destruct (proj1 (Hmem e1)) as [Hi Hs]; [now left|]. exists e1. split; [exact Hi|]. split; [exact Hs|]. now destruct (pos_of e1).
        * apply sets_at_iff. destruct (proj1 (Hmem e2)) as [Hi Hs]; [right; now left|]. exists e2. split; [exact Hi|]. split; [exact Hs|]. now destruct (pos_of e2).
        * exact Hb.
        * intros a2 i2 H2 He. apply sets_at_iff in H2 as (e & Hi & Hs & Hp).
          destruct (proj2 (Hmem e) (conj Hi Hs)) as [<-|[<-|Hin]]; [now rewrite Hp| |].
          { exfalso. rewrite Hp in He. cbn in He. revert He. unfold earlier. lia. }
          { exfalso. inversion Hts2 as [|? ? _ H3]; subst. rewrite Forall_forall in H3. apply H3 in Hin.
            revert Hin He. unfold before, earlier. rewrite Hp. cbn [fst snd]. lia. }
    - destruct 1 as [a x f Hx Hb Hm|a x f Hx Hb Hm|a i f n p s Hi Hw|a1 i1 a i k H1 H2 He Hk|a1 i1 a i H1 H2 He Hu].
      + left. assert (Hin : In (EvMeta a f) (events 0 l)) by (apply events_meta; now exists x).
        apply in_split in Hin as (pre & post & ->). exists pre, (EvMeta a f), post. split; [reflexivity|]. left. now rewrite not_list_name.
      + left. assert (Hin : In (EvSyn a) (events 0 l)) by (apply events_syn; now exists x, f).
        apply in_split in Hin as (pre & post & ->). exists pre, (EvSyn a), post. split; [reflexivity|]. now left.
      + left. apply events_item in Hi. apply in_split in Hi as (pre & post & ->). exists pre, (EvItem a i f n), post. split; [reflexivity|].
        cbn. apply d_item_wrong in Hw. rewrite Hw. now left.
      + left. apply sets_at_iff in H1 as (e1 & Hin1 & Hs1 & Hp1). apply sets_at_iff in H2 as (e & Hin & Hs & Hp).
        assert (Hin' := Hin). apply in_split in Hin as (pre & post & El). exists pre, e, post. split; [exact El|].
        destruct e as [b f|b|b j f n]; destruct Hs as (x & Hx & <-); try discriminate Hx. cbn in Hp. injection Hp as -> ->.
        cbn [ev_set] in Hx. cbn [step_ev]. destruct (d_item pos f n) as [|p y|p y] eqn:E; try discriminate Hx. injection Hx as ->.
        assert (Hg : get (key_of x) (fst (fst (run o pos pre start))) <> []).
        { apply run_get; [exact Hk|]. exists e1. split; [|exact Hs1].
          apply (sorted_before before pre (EvItem a i f n) post); [apply before_irr|apply before_asym|rewrite <- El; apply events_sorted|].
          rewrite <- El. split; [exact Hin1|]. unfold before. now rewrite Hp1. }
        assert (Hd : snd (assign x (fst (fst (run o pos pre start)))) = true) by (apply assign_dup; now split).
        unfold set_pure. cbn [snd]. rewrite Hd. left. rewrite (duplicate_name _ Hk). now destruct (d_item_says _ _ _ _ _ E) as [_ ->].
      + right. apply sets_at_iff in H1 as (e1 & Hin1 & Hs1 & Hp1). apply sets_at_iff in H2 as (e & Hin & Hs & Hp).
        assert (Ht1 := proj2 (Hmem _) (conj Hin1 Hs1)). assert (Ht := proj2 (Hmem _) (conj Hin Hs)).
        assert (Hb : before e1 e) by (unfold before; now rewrite Hp1, Hp).
        assert (Hu' : forall e2, In e2 (filter (is_type pos) (events 0 l)) -> before e2 e -> pos_of e2 = pos_of e1).
        { intros e2 He2 Hb2. apply Hmem in He2 as [Hi2 Hs2]. destruct (Hu (fst (pos_of e2)) (snd (pos_of e2))) as [Ha Hi].
          - apply sets_at_iff. exists e2. split; [exact Hi2|]. split; [exact Hs2|]. now destruct (pos_of e2).
          - revert Hb2. unfold before. now rewrite Hp.
          - rewrite Hp1. destruct (pos_of e2). cbn in *. congruence. }
        unfold type_diags. apply in_split in Ht as (pre & post & El). rewrite El in *.
        assert (Hpre : forall x, In x pre <-> In x (pre ++ e :: post) /\ before x e)
          by (intros x; apply (sorted_before before); [apply before_irr|apply before_asym|exact Hts]).
        assert (H1' : In e1 pre) by (apply Hpre; now split).
        destruct pre as [|x [|y pre]]; [destruct H1'| |].
        * cbn. left. unfold place_of. now rewrite Hp.
        * exfalso. cbn in Hts. inversion Hts as [|? ? _ H3]; subst. rewrite Forall_forall in H3.
          assert (Hxy : before x y) by (apply H3; now left).
          assert (Hx : pos_of x = pos_of e1) by (apply Hu'; apply Hpre; now left).
          assert (Hy : pos_of y = pos_of e1) by (apply Hu'; apply Hpre; right; now left).
          revert Hxy. unfold before, earlier. rewrite Hx, Hy. lia.
  Qed.

  (** ** Order *)
  Lemma lex_app a b x y : lex_lt a b -> lex_lt (a ++ x) (b ++ y).
  Proof. induction 1; cbn; now constructor. Qed.
  Lemma lex_prefix a x y : lex_lt x y -> lex_lt (a ++ x) (a ++ y).
  Proof. intros H. induction a as [|n a IH]; [exact H|]. cbn. now constructor. Qed.

  Lemma wrong_text pos f n p s : wrong pos f n p s -> s <> u "duplicate opg attribute".
  Proof.
    destruct 1 as [w Hw|w Hw|s Hs|s -> Hs|w items ss j Hw Hss Hj|p Hu|p l s Hu Hs|p items s Hs]; intros E; try (vm_compute in E; discriminate).
  Qed.
  Lemma step_ranked o pos e v d : In d (snd (step_ev o pos e v)) -> ranked d (owner_rank o ++ [0; fst (pos_of e); snd (pos_of e)]).
  Proof.
    destruct e as [a f|a|a i f n]; cbn [step_ev snd pos_of fst].
    - intros [<-|[]]. apply rk_meta. reflexivity.
    - intros [<-|[]]. apply rk_syntax. reflexivity.
    - destruct (d_item pos f n) as [|p x|p s] eqn:E; cbn [snd].
      + intros [].
      + unfold set_pure. cbn [snd]. destruct (snd (assign x _)) eqn:Ed; [|intros []]. intros [<-|[]].
        eapply rk_part; [reflexivity|]. apply assign_dup in Ed as [Hk _]. rewrite (duplicate_name _ Hk).
        unfold is_type_complaint. cbn [own dg_text]. intros [= E']; destruct x; vm_compute in E'; discriminate.
      + intros [<-|[]]. eapply rk_part; [reflexivity|]. apply d_item_wrong, wrong_text in E. unfold is_type_complaint. cbn [own dg_text]. intros [= Hs]. exact (E Hs).
  Qed.
  Lemma step_short o pos e v : StronglySorted comes_before (snd (step_ev o pos e v)).
  Proof.
    destruct e as [a f|a|a i f n]; cbn [step_ev snd]; try (repeat constructor).
    destruct (d_item pos f n) as [|p x|p s]; cbn [snd]; try (repeat constructor).
    unfold set_pure. cbn [snd]. destruct (snd (assign x _)); repeat constructor.
  Qed.
  Lemma run_ranked o pos l v d : In d (snd (run o pos l v)) ->
    exists e, In e l /\ ranked d (owner_rank o ++ [0; fst (pos_of e); snd (pos_of e)]).
  Proof.
    intros H. apply run_in in H as (pre & e & post & -> & H). exists e. split; [apply in_or_app; right; now left|].
    eapply step_ranked; eassumption.
  Qed.
  Lemma run_sorted o pos l v : StronglySorted before l -> StronglySorted comes_before (snd (run o pos l v)).
  Proof.
    intros H. revert v. induction H as [|e l H IH He]; intros v; [constructor|]. cbn [run snd]. apply sorted_app; [apply step_short|apply IH|].
    intros d1 d2 H1 H2. apply step_ranked in H1. apply run_ranked in H2 as (e2 & Hin & H2). rewrite Forall_forall in He. apply He in Hin.
    do 2 eexists. split; [exact H1|]. split; [exact H2|]. apply lex_prefix. apply lex_tail.
    destruct Hin as [Hlt|[Heq Hlt]]; [now apply lex_head|]. rewrite Heq. apply lex_tail. now apply lex_head.
  Qed.
  Lemma owner_ranked o pos l d : In d (owner_diags o pos l) -> exists r, ranked d (owner_rank o ++ r).
  Proof.
    unfold owner_diags. rewrite in_app_iff. intros [H|H].
    - apply run_ranked in H as (e & _ & H). eauto.
    - unfold type_diags in H. destruct (filter _ _) as [|e1 [|e2 ts]]; [destruct H|destruct H|]. destruct H as [<-|[]].
      exists [1; 0; 0]. eapply rk_type; reflexivity.
  Qed.
  Lemma container_ranked pos l d : In d (owner_diags OContainer pos l) -> exists n r, n < 2 /\ ranked d (0 :: 0 :: n :: r).
  Proof.
    unfold owner_diags. rewrite in_app_iff. intros [H|H].
    - apply run_ranked in H as (e & _ & H). exists 0. eexists. split; [lia|exact H].
    - unfold type_diags in H. destruct (filter _ _) as [|e1 [|e2 ts]]; [destruct H|destruct H|]. destruct H as [<-|[]].
      exists 1, [0; 0]. split; [lia|]. exact (rk_type (own (place_of OContainer e2 PaPath) (u "duplicate opg attribute")) OContainer _ _ _ eq_refl eq_refl).
  Qed.
  Lemma owner_sorted o pos l : StronglySorted comes_before (owner_diags o pos l).
  Proof.
    unfold owner_diags. apply sorted_app; [apply run_sorted, events_sorted| |].
    - unfold type_diags. destruct (filter _ _) as [|e1 [|e2 ts]]; repeat constructor.
    - intros d1 d2 H1 H2. apply run_ranked in H1 as (e & _ & H1). unfold type_diags in H2.
      destruct (filter _ _) as [|e1 [|e2 ts]]; [destruct H2|destruct H2|]. destruct H2 as [<-|[]].
      do 2 eexists. split; [exact H1|]. split; [eapply rk_type; reflexivity|]. apply lex_prefix. apply lex_head. lia.
  Qed.

  (** ** Values *)
  Lemma parse_logs o pos l : exists v, logs (d_parse o pos l) v (snd (run o pos (events 0 l) start)) /\
    fst v = fst (parse_attrs pe pp pos l) /\
    logs (d_at_most_one v) (fst (at_most_one (s_types (fst v)))) (type_diags o pos (events 0 l)) /\
    length (owner_diags o pos l) = length (snd (parse_attrs pe pp pos l)) + length (snd (at_most_one (s_types (fst v)))).
  Proof.
    exists (fst (run o pos (events 0 l) start)). split; [apply d_loop_logs|].
    destruct (run_step o pos (events 0 l) start []) as [H1 H2]. rewrite events_entries in H1, H2. fold (parse_attrs pe pp pos l) in H1, H2.
    destruct (run_types o pos (events 0 l)) as [H3 H4]. split; [exact H1|].
    unfold owner_diags. rewrite app_length. cbn [length plus] in H2. rewrite H2.
    unfold type_diags, d_at_most_one, at_most_one. destruct (fst (run o pos (events 0 l) start)) as [s dup]. cbn [fst snd] in *. rewrite H3, H4.
    destruct (filter _ _) as [|e1 [|e2 ts]]; cbn [length PeanoNat.Nat.ltb PeanoNat.Nat.leb].
    - split; [|reflexivity]. eapply logs_first; [apply logs_ret|apply logs_ret].
    - split; [|reflexivity]. eapply logs_first; [apply logs_ret|apply logs_ret].
    - split; [|reflexivity]. eapply logs_then; [apply logs_report|apply logs_ret].
  Qed.
End Facts.
