(** Proofs about Case.v. *)
From Verif Require Import Case CaseSpec.
From Coq Require Import ZifyBool ZifyN.

Lemma utf8_len_1 c : Nat.eqb (utf8_len c) 1 = (c <? 128)%N.
Proof.
  unfold utf8_len. destruct (c <? 128)%N; auto. destruct (c <? 2048)%N; auto. destruct (c <? 65536)%N; auto.
Qed.

Lemma ch_upper_ascii c : (ch_upper c <? 128)%N = (c <? 128)%N.
Proof. unfold ch_upper, is_ascii_lower. destruct ((97 <=? c)%N && (c <=? 122)%N) eqn:E; lia. Qed.

Section Facts.
  Variable uni : N -> bool.
  Notation isup := (is_uppercase uni).

  Lemma not_upper_lower c : isup c = false -> ch_lower c = c.
  Proof.
    unfold is_uppercase, ch_lower, is_ascii_upper. destruct (c <? 128)%N eqn:E.
    - now intros ->.
    - destruct ((65 <=? c)%N && (c <=? 90)%N) eqn:E2; lia.
  Qed.

  Lemma upper_is_upper c : is_ascii_lower c = true -> isup (ch_upper c) = true.
  Proof.
    unfold is_uppercase, ch_upper. intros H. rewrite H. unfold is_ascii_lower, is_ascii_upper in *.
    destruct (c - 32 <? 128)%N eqn:E; lia.
  Qed.

  Lemma lower_upper_not_upper c : isup c = false -> ch_lower (ch_upper c) = c.
  Proof.
    unfold is_uppercase, ch_lower, ch_upper, is_ascii_upper, is_ascii_lower.
    destruct (c <? 128)%N eqn:E0; destruct ((97 <=? c)%N && (c <=? 122)%N) eqn:E1;
      try (intros H); destruct ((65 <=? c - 32)%N && (c - 32 <=? 90)%N) eqn:E2;
      destruct ((65 <=? c)%N && (c <=? 90)%N) eqn:E3; lia.
  Qed.

  Lemma snake_rest w s : Forall (word_char uni) w -> snake_variant uni true (w ++ s) = w ++ snake_variant uni true s.
  Proof.
    induction 1 as [|c w (Hc & _) Hw IH]; cbn; auto. rewrite Hc, IH. cbn. now rewrite not_upper_lower.
  Qed.

  Lemma snake_words ws : Forall (letter_word uni) ws ->
    snake_variant uni true (variant_ident ws) = concat (map (fun w => u "_" ++ w) ws).
  Proof.
    unfold variant_ident. induction 1 as [|w ws ((Hne & Hw) & c & r & -> & Hc) Hws IH]; auto.
    cbn [map concat capitalise app snake_variant]. inversion Hw as [|? ? [Hup _] Hr]; subst.
    rewrite upper_is_upper by assumption. rewrite snake_rest by assumption. rewrite IH.
    rewrite lower_upper_not_upper by assumption. reflexivity.
  Qed.

  Lemma join_cons sep w ws : join sep (w :: ws) = w ++ concat (map (fun w => sep ++ w) ws).
  Proof.
    revert w; induction ws as [|w' ws IH]; intros w; [cbn; now rewrite app_nil_r|].
    change (join sep (w :: w' :: ws)) with (w ++ sep ++ join sep (w' :: ws)).
    rewrite IH. cbn. now rewrite <- !app_assoc.
  Qed.

  Lemma snake_ident ws : Forall (letter_word uni) ws ->
    snake_variant uni false (variant_ident ws) = join (u "_") ws.
  Proof.
    destruct 1 as [|w ws ((Hne & Hw) & c & r & -> & Hc) Hws]; auto.
    rewrite join_cons. rewrite <- snake_words by assumption.
    unfold variant_ident. cbn [map concat capitalise app snake_variant andb].
    inversion Hw as [|? ? [Hup _] Hr]; subst. fold (variant_ident ws).
    rewrite snake_rest by assumption. cbn [app].
    now rewrite lower_upper_not_upper.
  Qed.

  Lemma to_upper_app a b : to_upper (a ++ b) = to_upper a ++ to_upper b.
  Proof. apply map_app. Qed.
  Lemma to_lower_app a b : to_lower (a ++ b) = to_lower a ++ to_lower b.
  Proof. apply map_app. Qed.

  Lemma to_upper_concat l : to_upper (concat l) = concat (map to_upper l).
  Proof. induction l; cbn; auto. now rewrite to_upper_app, IHl. Qed.
  Lemma to_lower_concat l : to_lower (concat l) = concat (map to_lower l).
  Proof. induction l; cbn; auto. now rewrite to_lower_app, IHl. Qed.

  Lemma to_upper_join ws : to_upper (join (u "_") ws) = join (u "_") (map to_upper ws).
  Proof.
    destruct ws as [|w ws]; auto. cbn [map]. rewrite !join_cons, to_upper_app, to_upper_concat, !map_map.
    f_equal; try (f_equal; apply map_ext; intros a; now rewrite to_upper_app).
  Qed.

  Lemma replace_app a b x y : replace_char x y (a ++ b) = replace_char x y a ++ replace_char x y b.
  Proof. apply map_app. Qed.
  Lemma replace_concat l x y : replace_char x y (concat l) = concat (map (replace_char x y) l).
  Proof. induction l; cbn [concat map]; auto. now rewrite replace_app, IHl. Qed.

  Lemma replace_none w x y : Forall (fun c => c <> x) w -> replace_char x y w = w.
  Proof.
    induction 1 as [|c w Hc Hw IH]; auto. unfold replace_char in *. cbn [map]. rewrite IH. destruct (N.eqb_spec c x); congruence.
  Qed.

  Lemma replace_join ws : Forall (Forall (fun c => c <> c_underscore)) ws ->
    replace_char c_underscore c_dash (join (u "_") ws) = join (u "-") ws.
  Proof.
    destruct 1 as [|w ws Hw Hws]; auto. rewrite !join_cons, replace_app, replace_concat, replace_none by assumption.
    f_equal. rewrite map_map. f_equal. apply map_ext_in. intros a Ha. rewrite Forall_forall in Hws.
    rewrite replace_app, (replace_none a); auto.
  Qed.

  Lemma ch_upper_not_underscore c : c <> c_underscore -> ch_upper c <> c_underscore.
  Proof. unfold ch_upper, is_ascii_lower, c_underscore. destruct ((97 <=? c)%N && (c <=? 122)%N) eqn:E; lia. Qed.

  Lemma word_no_underscore w : Forall (word_char uni) w -> Forall (fun c => c <> c_underscore) w.
  Proof. apply Forall_impl. now intros c (_ & H & _). Qed.

  Lemma upper_no_underscore w : Forall (word_char uni) w -> Forall (fun c => c <> c_underscore) (to_upper w).
  Proof.
    intros H. unfold to_upper. apply Forall_map. eapply Forall_impl; [|exact H].
    intros c (_ & Hc & _). now apply ch_upper_not_underscore.
  Qed.

  Lemma words_no_underscore ws : Forall (word uni) ws -> Forall (Forall (fun c => c <> c_underscore)) ws.
  Proof. apply Forall_impl. intros w [_ H]. now apply word_no_underscore. Qed.
  Lemma uppers_no_underscore ws : Forall (word uni) ws -> Forall (Forall (fun c => c <> c_underscore)) (map to_upper ws).
  Proof.
    intros H. apply Forall_map. eapply Forall_impl; [|exact H]. intros w [_ Hw]. now apply upper_no_underscore.
  Qed.

  Lemma letters_words ws : Forall (letter_word uni) ws -> Forall (word uni) ws.
  Proof. apply Forall_impl. now intros w [H _]. Qed.

  Lemma lower_capitalise w : word uni w -> to_lower (capitalise w) = w.
  Proof.
    intros [Hne Hw]. destruct w as [|c r]; auto. inversion Hw as [|? ? (Hc & _) Hr]; subst. cbn.
    rewrite lower_upper_not_upper by assumption. f_equal. clear - Hr.
    induction Hr as [|x r (Hx & _) Hr IH]; cbn; auto. now rewrite not_upper_lower, IH.
  Qed.

  Lemma ch_upper_idem c : ch_upper (ch_upper c) = ch_upper c.
  Proof.
    unfold ch_upper, is_ascii_lower. destruct ((97 <=? c)%N && (c <=? 122)%N) eqn:E.
    - destruct ((97 <=? c - 32)%N && (c - 32 <=? 122)%N) eqn:E2; lia.
    - now rewrite E.
  Qed.

  Lemma upper_capitalise w : to_upper (capitalise w) = to_upper w.
  Proof. destruct w; cbn; auto. now rewrite ch_upper_idem. Qed.

  Lemma ascii_lower_lt c : is_ascii_lower c = true -> (c < 128)%N.
  Proof. unfold is_ascii_lower. lia. Qed.

  Lemma lower_first_spec c s : (c < 128)%N -> lower_first_byte (c :: s) = Some (ch_lower c :: s).
  Proof.
    intros H. unfold lower_first_byte, split_first_byte. rewrite utf8_len_1.
    apply N.ltb_lt in H. now rewrite H.
  Qed.

  Lemma variant_conventional r ws : ws <> [] -> Forall (letter_word uni) ws ->
    apply_to_variant uni r (variant_ident ws) = Some (variant_spelling r ws).
  Proof.
    intros Hne Hws. pose proof (letters_words _ Hws) as Hw.
    destruct r; cbn [apply_to_variant variant_spelling]; try reflexivity; try f_equal.
    - unfold variant_ident. rewrite to_lower_concat, map_map. f_equal.
      rewrite <- (map_id ws) at 2. apply map_ext_in. intros a Ha. rewrite Forall_forall in Hw.
      apply lower_capitalise; auto.
    - unfold variant_ident. rewrite to_upper_concat, map_map. f_equal. apply map_ext. apply upper_capitalise.
    - destruct Hws as [|w ws ((_ & Hc) & c & r & -> & Hl) Hr]; [congruence|].
      inversion Hc as [|? ? (Hup & _) _]; subst.
      unfold variant_ident. cbn [map concat capitalise app]. rewrite lower_first_spec.
      + rewrite lower_upper_not_upper by assumption. reflexivity.
      + apply N.ltb_lt. rewrite ch_upper_ascii. apply N.ltb_lt. now apply ascii_lower_lt.
    - now apply snake_ident.
    - rewrite snake_ident by assumption. apply to_upper_join.
    - rewrite snake_ident by assumption. apply replace_join. now apply words_no_underscore.
    - rewrite snake_ident by assumption. rewrite to_upper_join. apply replace_join. now apply uppers_no_underscore.
  Qed.

  (** ** Fields *)

  Lemma pascal_rest w s : Forall (fun c => c <> c_underscore) w ->
    pascal_field false (w ++ s) = w ++ pascal_field false s.
  Proof.
    induction 1 as [|c w Hc Hw IH]; cbn; auto. destruct (N.eqb_spec c c_underscore); [contradiction|]. now rewrite IH.
  Qed.

  Lemma pascal_word w s : Forall (fun c => c <> c_underscore) w -> w <> [] ->
    pascal_field true (w ++ s) = capitalise w ++ pascal_field false s.
  Proof.
    intros Hw Hne. destruct Hw as [|c w Hc Hw]; [congruence|]. cbn.
    destruct (N.eqb_spec c c_underscore); [contradiction|]. now rewrite pascal_rest.
  Qed.

  Lemma pascal_words ws : Forall (word uni) ws ->
    pascal_field false (concat (map (fun w => u "_" ++ w) ws)) = concat (map capitalise ws).
  Proof.
    induction 1 as [|w ws (Hne & Hw) Hws IH]; auto. cbn [map concat].
    rewrite <- app_assoc. cbn [u app]. cbn. rewrite pascal_word by (auto using word_no_underscore).
    rewrite <- IH. reflexivity.
  Qed.

  Lemma pascal_ident ws : Forall (word uni) ws ->
    pascal_field true (field_ident ws) = concat (map capitalise ws).
  Proof.
    unfold field_ident. destruct 1 as [|w ws (Hne & Hw) Hws]; auto. rewrite join_cons.
    rewrite pascal_word by (auto using word_no_underscore). cbn [map concat]. f_equal. now apply pascal_words.
  Qed.

  Lemma field_conventional r ws : Forall (word uni) ws ->
    (exists c w ws', ws = (c :: w) :: ws' /\ is_ascii c) ->
    apply_to_field r (field_ident ws) = Some (field_spelling r ws).
  Proof.
    intros Hw (c & w & ws' & -> & Hc).
    destruct r; cbn [apply_to_field field_spelling]; try reflexivity; try f_equal.
    - apply to_upper_join.
    - now apply pascal_ident.
    - rewrite pascal_ident by assumption. cbn [map concat capitalise app].
      inversion Hw as [|? ? [_ Hcw] _]; subst. inversion Hcw as [|? ? (Hup & _) _]; subst.
      rewrite lower_first_spec.
      + rewrite lower_upper_not_upper by assumption. reflexivity.
      + apply N.ltb_lt. rewrite ch_upper_ascii. now apply N.ltb_lt.
    - apply to_upper_join.
    - apply replace_join. now apply words_no_underscore.
    - unfold field_ident. rewrite to_upper_join. apply replace_join. now apply uppers_no_underscore.
  Qed.

  (** ** Panics *)

  Lemma lower_first_none s : lower_first_byte s = None <-> ~ exists c rest, s = c :: rest /\ is_ascii c.
  Proof.
    unfold lower_first_byte, split_first_byte. destruct s as [|c s].
    - split; auto. intros _ (c & r & H & _). discriminate.
    - rewrite utf8_len_1. destruct (c <? 128)%N eqn:E.
      + split; [discriminate|]. intros H. exfalso. apply H. exists c, s. split; auto. now apply N.ltb_lt.
      + split; auto. intros _ (c' & r & [= <- <-] & H). apply N.ltb_lt in H. congruence.
  Qed.

  Lemma variant_panics r s : apply_to_variant uni r s = None <->
    r = RCamelCase /\ ~ exists c rest, s = c :: rest /\ is_ascii c.
  Proof.
    destruct r; cbn [apply_to_variant]; try (split; [discriminate | intros [? _]; discriminate]).
    rewrite lower_first_none. tauto.
  Qed.

  Lemma pascal_head s c rest : pascal_field true s = c :: rest ->
    exists us c0 rest0, s = us ++ c0 :: rest0 /\ Forall (fun x => x = c_underscore) us /\ c0 <> c_underscore /\ c = ch_upper c0.
  Proof.
    induction s as [|x s IH]; cbn; [discriminate|].
    destruct (N.eqb_spec x c_underscore) as [->|Hx].
    - intros H. apply IH in H as (us & c0 & r0 & -> & H1 & H2 & H3). exists (c_underscore :: us), c0, r0. auto.
    - intros [= <- _]. exists [], x, s. auto.
  Qed.

  Lemma pascal_skip us s : Forall (fun x => x = c_underscore) us -> pascal_field true (us ++ s) = pascal_field true s.
  Proof. induction 1 as [|x us -> Hus IH]; auto. Qed.

  Lemma field_panics r s : apply_to_field r s = None <->
    r = RCamelCase /\ ~ exists us c rest, s = us ++ c :: rest /\ Forall (fun x => x = c_underscore) us /\
                        c <> c_underscore /\ is_ascii c.
  Proof.
    destruct r; cbn [apply_to_field]; try (split; [discriminate | intros [? _]; discriminate]).
    rewrite lower_first_none. split.
    - intros H. split; auto. intros (us & c & rest & -> & Hus & Hc & Ha). apply H.
      rewrite pascal_skip by assumption. cbn. destruct (N.eqb_spec c c_underscore); [contradiction|].
      do 2 eexists. split; [reflexivity|]. unfold is_ascii in *. apply N.ltb_lt. rewrite ch_upper_ascii. now apply N.ltb_lt.
    - intros [_ H] (c & rest & Hp & Ha). apply H. apply pascal_head in Hp as (us & c0 & r0 & -> & H1 & H2 & ->).
      exists us, c0, r0. repeat split; auto. unfold is_ascii in *. apply N.ltb_lt. rewrite <- ch_upper_ascii. now apply N.ltb_lt.
  Qed.

  (** ** Injectivity *)

  Lemma join_inj sep ws1 ws2 :
    Forall (fun w => w <> [] /\ Forall (fun c => c <> sep) w) ws1 ->
    Forall (fun w => w <> [] /\ Forall (fun c => c <> sep) w) ws2 ->
    join [sep] ws1 = join [sep] ws2 -> ws1 = ws2.
  Proof.
    assert (Hrest : forall l1 l2,
      Forall (fun w => w <> [] /\ Forall (fun c => c <> sep) w) l1 ->
      Forall (fun w => w <> [] /\ Forall (fun c => c <> sep) w) l2 ->
      forall w1 w2, Forall (fun c => c <> sep) w1 -> Forall (fun c => c <> sep) w2 ->
      w1 ++ concat (map (fun w => [sep] ++ w) l1) = w2 ++ concat (map (fun w => [sep] ++ w) l2) -> w1 = w2 /\ l1 = l2).
    { induction l1 as [|x l1 IH]; intros l2 H1 H2.
      - intros w1 w2 Hw1 Hw2 Heq. destruct l2 as [|y l2].
        + cbn in Heq. rewrite !app_nil_r in Heq. auto.
        + exfalso. cbn in Heq. rewrite app_nil_r in Heq. subst. apply Forall_app in Hw1 as [_ Hw1].
          inversion Hw1; congruence.
      - inversion H1 as [|? ? [_ Hx] H1']; subst. intros w1 w2 Hw1. revert w2.
        induction Hw1 as [|c w1 Hc Hw1 IHw]; intros w2 Hw2 Heq.
        + destruct w2 as [|c2 w2].
          * split; auto. destruct l2 as [|y l2]; [discriminate|]. inversion H2 as [|? ? [_ Hy] H2']; subst.
            cbn in Heq. injection Heq as Heq. apply (IH l2 H1' H2' x y Hx Hy) in Heq as [-> ->]. auto.
          * exfalso. cbn in Heq. injection Heq as -> _. inversion Hw2; congruence.
        + destruct w2 as [|c2 w2].
          * exfalso. destruct l2 as [|y l2]; [discriminate|]. cbn in Heq. injection Heq as -> _. congruence.
          * cbn in Heq. injection Heq as -> Heq. inversion Hw2; subst. apply IHw in Heq as [-> ->]; auto. }
    intros H1 H2. destruct ws1 as [|w1 l1], ws2 as [|w2 l2]; auto.
    - rewrite join_cons. inversion H2 as [|? ? [Hne _] _]; subst. cbn. destruct w2; [congruence|discriminate].
    - rewrite join_cons. inversion H1 as [|? ? [Hne _] _]; subst. cbn. destruct w1; [congruence|discriminate].
    - rewrite !join_cons. inversion H1 as [|? ? [_ Hw1] H1']; inversion H2 as [|? ? [_ Hw2] H2']; subst.
      intros H. apply Hrest in H as [-> ->]; auto.
  Qed.

  Lemma ch_upper_inj a b : isup a = false -> isup b = false -> ch_upper a = ch_upper b -> a = b.
  Proof. intros Ha Hb H. rewrite <- (lower_upper_not_upper a), <- (lower_upper_not_upper b), H; auto. Qed.

  Lemma to_upper_inj w1 w2 : Forall (word_char uni) w1 -> Forall (word_char uni) w2 -> to_upper w1 = to_upper w2 -> w1 = w2.
  Proof.
    intros H1. revert w2. induction H1 as [|c w1 (Hc & _) H1 IH]; intros [|c2 w2] H2; cbn; try discriminate; auto.
    intros [= E1 E2]. inversion H2 as [|? ? (Hc2 & _) H2']; subst. f_equal; auto. now apply ch_upper_inj.
  Qed.

  Lemma map_upper_inj ws1 ws2 : Forall (word uni) ws1 -> Forall (word uni) ws2 ->
    map to_upper ws1 = map to_upper ws2 -> ws1 = ws2.
  Proof.
    intros H1. revert ws2. induction H1 as [|w ws1 [_ Hw] H1 IH]; intros [|w2 ws2] H2; cbn; try discriminate; auto.
    intros [= E1 E2]. inversion H2 as [|? ? [_ Hw2] H2']; subst. f_equal; auto. now apply to_upper_inj.
  Qed.

  Lemma words_sep_free sep ws : sep = c_underscore \/ sep = c_dash -> Forall (word uni) ws ->
    Forall (fun w => w <> [] /\ Forall (fun c => c <> sep) w) ws.
  Proof.
    intros Hs. apply Forall_impl. intros w [Hne Hw]. split; auto. eapply Forall_impl; [|exact Hw].
    intros c (_ & H1 & H2). destruct Hs; subst; auto.
  Qed.

  Lemma ch_upper_not_dash c : c <> c_dash -> ch_upper c <> c_dash.
  Proof. unfold ch_upper, is_ascii_lower, c_dash. destruct ((97 <=? c)%N && (c <=? 122)%N) eqn:E; lia. Qed.

  Lemma uppers_sep_free sep ws : sep = c_underscore \/ sep = c_dash -> Forall (word uni) ws ->
    Forall (fun w => w <> [] /\ Forall (fun c => c <> sep) w) (map to_upper ws).
  Proof.
    intros Hs H. apply Forall_map. eapply Forall_impl; [|exact H]. intros w [Hne Hw]. split.
    - destruct w; [congruence|discriminate].
    - unfold to_upper. apply Forall_map. eapply Forall_impl; [|exact Hw].
      intros c (_ & H1 & H2). destruct Hs; subst; auto using ch_upper_not_underscore, ch_upper_not_dash.
  Qed.

  Lemma variant_ident_inj ws1 ws2 : Forall (letter_word uni) ws1 -> Forall (letter_word uni) ws2 ->
    variant_ident ws1 = variant_ident ws2 -> ws1 = ws2.
  Proof.
    intros H1 H2 H. apply (join_inj c_underscore);
      try (apply words_sep_free; auto using letters_words).
    change [c_underscore] with (u "_"). rewrite <- !snake_ident by assumption. now rewrite H.
  Qed.

  Lemma camel_inj ws1 ws2 : Forall (letter_word uni) ws1 -> Forall (letter_word uni) ws2 ->
    ws1 <> [] -> ws2 <> [] -> camel ws1 = camel ws2 -> ws1 = ws2.
  Proof.
    intros H1 H2 N1 N2 H. apply variant_ident_inj; auto.
    assert (Hv : forall ws, ws <> [] -> Forall (letter_word uni) ws ->
              match camel ws with c :: r => ch_upper c :: r | [] => [] end = variant_ident ws).
    { intros ws Hne Hws. destruct Hws as [|w ws ((_ & _) & c & r & -> & _) _]; [congruence|]. reflexivity. }
    rewrite <- (Hv ws1), <- (Hv ws2), H; auto.
  Qed.

  Lemma spelling_inj r ws1 ws2 : Forall (letter_word uni) ws1 -> Forall (letter_word uni) ws2 ->
    ws1 <> [] -> ws2 <> [] -> separating r -> variant_spelling r ws1 = variant_spelling r ws2 -> ws1 = ws2.
  Proof.
    intros H1 H2 N1 N2 [S1 S2]. pose proof (letters_words _ H1) as W1. pose proof (letters_words _ H2) as W2.
    destruct r; cbn [variant_spelling]; try congruence.
    - now apply variant_ident_inj.
    - now apply variant_ident_inj.
    - now apply camel_inj.
    - apply (join_inj c_underscore); auto using words_sep_free.
    - intros H. apply (join_inj c_underscore) in H; auto using uppers_sep_free. now apply map_upper_inj.
    - apply (join_inj c_dash); auto using words_sep_free.
    - intros H. apply (join_inj c_dash) in H; auto using uppers_sep_free. now apply map_upper_inj.
  Qed.

  Lemma variant_injective r ws1 ws2 : separating r -> ws1 <> [] -> ws2 <> [] ->
    Forall (letter_word uni) ws1 -> Forall (letter_word uni) ws2 ->
    apply_to_variant uni r (variant_ident ws1) = apply_to_variant uni r (variant_ident ws2) ->
    variant_ident ws1 = variant_ident ws2.
  Proof.
    intros S N1 N2 H1 H2. rewrite !variant_conventional by assumption. intros [= H].
    now rewrite (spelling_inj r ws1 ws2).
  Qed.

  Lemma letter_ascii ws : ws <> [] -> Forall (letter_word uni) ws ->
    exists c w ws', ws = (c :: w) :: ws' /\ is_ascii c.
  Proof.
    intros Hne H. destruct H as [|w ws (_ & c & r & -> & Hc) _]; [congruence|].
    exists c, r, ws. split; auto. now apply ascii_lower_lt.
  Qed.

  Lemma field_injective r ws1 ws2 : ws1 <> [] -> ws2 <> [] ->
    Forall (letter_word uni) ws1 -> Forall (letter_word uni) ws2 ->
    apply_to_field r (field_ident ws1) = apply_to_field r (field_ident ws2) ->
    field_ident ws1 = field_ident ws2.
  Proof.
    intros N1 N2 H1 H2. pose proof (letters_words _ H1) as W1. pose proof (letters_words _ H2) as W2.
    rewrite !field_conventional by auto using letter_ascii. intros [= H].
    assert (Hj : join (u "_") (map to_upper ws1) = join (u "_") (map to_upper ws2) -> ws1 = ws2).
    { intros Hj. apply (join_inj c_underscore) in Hj; auto using uppers_sep_free. now apply map_upper_inj. }
    destruct r; cbn [field_spelling] in H; auto.
    - now rewrite (Hj H).
    - rewrite (variant_ident_inj ws1 ws2); auto.
    - rewrite (camel_inj ws1 ws2); auto.
    - now rewrite (Hj H).
    - apply (join_inj c_dash) in H; auto using words_sep_free. now subst.
    - apply (join_inj c_dash) in H; auto using uppers_sep_free. now rewrite (map_upper_inj ws1 ws2).
  Qed.
End Facts.

Lemma rule_from_str_iff s r : rule_from_str s = Some r <-> In (s, r) rule_spellings.
Proof.
  unfold rule_from_str, rule_spellings. split.
  - repeat match goal with |- context [str_eqb s ?x] => destruct (str_eqb_spec s x) as [->|?] end;
      try discriminate; intros [= <-]; cbn [In]; tauto.
  - cbn [In]. intros H. repeat (destruct H as [H|H]; [injection H as <- <-; reflexivity|]). destruct H.
Qed.
