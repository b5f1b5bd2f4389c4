(** How the depth grows with the lists, and which invocations fit a recursion limit. *)
From Verif Require Import Levels LevelsSpec LevelsFacts ApiSpec ApiFacts ApiFacts2 ApiFacts3 ApiFacts5 SyntaxSpec SyntaxFacts SyntaxFacts7 SyntaxFacts8 SyntaxFacts9.
From Coq Require Import PeanoNat Lia.
Local Open Scope string_scope. Local Open Scope list_scope.

Lemma side_by_side_le {A} (own : A -> nat) l n : side_by_side own l <= n <-> forall x, In x l -> own x <= n.
Proof.
  unfold side_by_side. rewrite list_max_le, Forall_map, Forall_forall. reflexivity.
Qed.
Lemma one_by_one_le {A} (own hops : A -> nat) l : forall n,
  one_by_one own hops l <= n <->
  hops_before hops l + 1 <= n /\ forall l1 x l2, l = l1 ++ x :: l2 -> hops_before hops l1 + 1 + own x <= n.
Proof.
  unfold hops_before. induction l as [|y l IH]; intros n; cbn [one_by_one].
  - cbn. split; [intros H; split; [exact H|intros [|z l1] x l2 E; discriminate]|tauto].
  - cbn [map list_sum]. change (list_sum (hops y :: map hops l)) with (hops y + list_sum (map hops l)). split.
    + intros H. assert (Hn : one_by_one own hops l <= n - hops y) by lia. assert (Hy : hops y <= n) by lia. apply IH in Hn. destruct Hn as [H1 H2].
      split; [lia|]. intros [|z l1] x l2 E; injection E as <- E.
      * cbn. lia.
      * specialize (H2 _ _ _ E). cbn. change (fold_right Nat.add 0 (map hops l1)) with (list_sum (map hops l1)). lia.
    + intros [H1 H2]. pose proof (H2 [] y l eq_refl) as H3. cbn in H3.
      assert (one_by_one own hops l <= n - hops y); [|lia]. apply IH. split; [lia|]. intros l1 x l2 ->.
      specialize (H2 (y :: l1) x l2 eq_refl). cbn in H2. change (fold_right Nat.add 0 (map hops l1)) with (list_sum (map hops l1)) in H2. lia.
Qed.

Section Fits.
  Variable seg : list tree -> option segment.
  Notation adepth := (api_depth seg).
  Lemma sections_alone a n : adepth a <= n <-> 1 <= n /\ forall s, In s a -> adepth [s] <= n.
  Proof.
    unfold api_depth. split.
    - intros H. split; [lia|]. intros s Hs. assert (Ha : side_by_side (section_depth seg) a <= n - 1) by lia. rewrite side_by_side_le in Ha.
      specialize (Ha s Hs). cbn. lia.
    - intros [Hn H]. assert (side_by_side (section_depth seg) a <= n - 1); [|lia]. apply side_by_side_le. intros s Hs. specialize (H s Hs). cbn in H. lia.
  Qed.
  Lemma one_section s : adepth [s] = 1 + section_depth seg s.
  Proof. unfold api_depth, side_by_side. cbn [map list_max fold_right]. rewrite Nat.max_0_r. reflexivity. Qed.
  Lemma paths_alone l n : adepth [ScPaths l] <= n <-> 2 <= n /\ forall d, In d l -> adepth [ScPaths [d]] <= n.
  Proof.
    rewrite one_section. cbn [section_depth]. split.
    - intros H. split; [lia|]. intros d Hd. assert (Ha : side_by_side (path_depth seg (callback_depth seg)) l <= n - 2) by lia.
      rewrite side_by_side_le in Ha. specialize (Ha d Hd). rewrite one_section. cbn [section_depth].
      assert (side_by_side (path_depth seg (callback_depth seg)) [d] <= n - 2); [|lia]. apply side_by_side_le. intros x [<-|[]]. exact Ha.
    - intros [Hn H]. assert (side_by_side (path_depth seg (callback_depth seg)) l <= n - 2); [|lia].
      apply side_by_side_le. intros d Hd. specialize (H d Hd). rewrite one_section in H. cbn [section_depth] in H.
      assert (Hx : side_by_side (path_depth seg (callback_depth seg)) [d] <= n - 2) by lia. rewrite side_by_side_le in Hx. apply Hx. now left.
  Qed.
  Lemma schemes_fit l n : adepth [ScSecurity l] <= n <->
    length l + 3 <= n /\ forall l1 s l2, l = l1 ++ s :: l2 -> length l1 + 3 + scheme_depth s <= n.
  Proof.
    assert (E : adepth [ScSecurity l] = 2 + one_by_one scheme_depth one_level l) by (rewrite one_section; reflexivity). rewrite E.
    assert (Hs : forall X (l : list X), hops_before one_level l = length l).
    { intros X l'. unfold hops_before. induction l' as [|x l' IH]; [reflexivity|]. cbn [map length]. change (list_sum (one_level x :: map one_level l')) with (S (list_sum (map one_level l'))). now rewrite IH. }
    pose proof (one_by_one_le scheme_depth one_level l (n - 2)) as H. rewrite Hs in H. split.
    - intros Hn. assert (one_by_one scheme_depth one_level l <= n - 2) as H' by lia. assert (2 <= n) by lia. apply H in H'. destruct H' as [H1 H2]. split; [lia|].
      intros l1 s l2 ->. specialize (H2 _ _ _ eq_refl). rewrite Hs in H2. lia.
    - intros [H1 H2]. assert (one_by_one scheme_depth one_level l <= n - 2); [|lia]. apply H. split; [lia|].
      intros l1 s l2 ->. specialize (H2 _ _ _ eq_refl). rewrite Hs. lia.
  Qed.
  (** a path with one operation *)
  Definition one_operation (url : list utok) (m : http_method) (ops : list (op_prop callback_decl)) : api :=
    [ScPaths [Build_path_decl_of url [PvMethod m ops]]].
  Lemma operation_fits url m ops n : adepth (one_operation url m ops) <= n <->
    url_depth seg url [] + 2 <= n /\ hops_before op_hops ops + 4 <= n /\
    forall l1 p l2, ops = l1 ++ p :: l2 -> hops_before op_hops l1 + 4 + op_depth (callback_depth seg) p <= n.
  Proof.
    assert (E : adepth (one_operation url m ops) = 2 + Nat.max (url_depth seg url []) (Nat.max (1 + one_by_one (op_depth (callback_depth seg)) op_hops ops) 2)).
    { unfold one_operation. rewrite one_section. cbn [section_depth]. unfold side_by_side. cbn [map list_max fold_right]. rewrite Nat.max_0_r. unfold path_depth. cbn [pd_url pd_props].
      change (one_by_one (path_prop_depth (callback_depth seg)) one_level [PvMethod m ops]) with
        (Nat.max (1 + one_by_one (op_depth (callback_depth seg)) op_hops ops) 2). reflexivity. }
    rewrite E. pose proof (one_by_one_le (op_depth (callback_depth seg)) op_hops ops (n - 3)) as H. split.
    - intros Hn. assert (H' : one_by_one (op_depth (callback_depth seg)) op_hops ops <= n - 3) by lia. assert (3 <= n) by lia.
      apply H in H'. destruct H' as [H1 H2]. split; [lia|]. split; [lia|]. intros l1 p l2 Hp. specialize (H2 _ _ _ Hp). lia.
    - intros (Hu & H1 & H2). assert (one_by_one (op_depth (callback_depth seg)) op_hops ops <= n - 3); [|lia].
      apply H. split; [lia|]. intros l1 p l2 Hp. specialize (H2 _ _ _ Hp). lia.
  Qed.

  Lemma part_depth_bounds ts : 1 <= part_depth seg ts <= 2.
  Proof. unfold part_depth. destruct (seg ts) as [[| |]|]; lia. Qed.
  Lemma url_depth_from url : forall current g gs, split_url url = g :: gs -> current ++ g <> [] -> Forall (fun g => g <> []) gs ->
    url_depth seg url current = length url + 1 + part_depth seg (last ((current ++ g) :: gs) []).
  Proof.
    induction url as [|t url IH]; intros current g gs Hs Hc Hf.
    - cbn in Hs. injection Hs as <- <-. rewrite app_nil_r in *. destruct current as [|c current]; [congruence|]. reflexivity.
    - cbn [split_url] in Hs. destruct t as [|t].
      + injection Hs as <- <-. rewrite app_nil_r in *. destruct current as [|c current]; [congruence|]. cbn [url_depth length].
        destruct (split_url url) as [|g gs] eqn:Eu; [now destruct url as [|[|] ?]; cbn in Eu; try discriminate; destruct (split_url url)|].
        inversion Hf as [|? ? Hg Hgs]; subst. rewrite (IH [] g gs eq_refl Hg Hgs).
        pose proof (part_depth_bounds (c :: current)). pose proof (part_depth_bounds (last (([] ++ g) :: gs) [])).
        change (last ((c :: current) :: g :: gs) []) with (last (g :: gs) []). cbn [app] in *. lia.
      + destruct (split_url url) as [|g' gs'] eqn:Eu; [now destruct url as [|[|] ?]; cbn in Eu; try discriminate; destruct (split_url url)|].
        injection Hs as <- <-. cbn [url_depth length]. cbn [tree_of].
        rewrite (IH (current ++ [t]) g' gs' eq_refl); [|now rewrite <- app_assoc|exact Hf]. rewrite <- app_assoc. cbn [app]. lia.
  Qed.
  Lemma url_depth_closed url : Forall (fun g => g <> []) (split_url url) ->
    url_depth seg url [] = length url + 1 + part_depth seg (last (split_url url) []).
  Proof.
    intros H. destruct (split_url url) as [|g gs] eqn:E; [now destruct url as [|[|] ?]; cbn in E; try discriminate; destruct (split_url url)|].
    inversion H as [|? ? Hg Hgs]; subst. now rewrite (url_depth_from url [] g gs E Hg Hgs).
  Qed.
End Fits.

(** ** the macros with a limit *)
Lemma limited_document limit C E reason ts d : rust_like C ->
  ((exists fuel, limited_api_macro limit C E fuel reason ts = Done d) <->
   exists a, invocation C ts a /\ api_depth (url_segment C) a <= limit /\ describes E reason (url_segment C) a d).
Proof.
  intros HC. unfold limited_api_macro. split.
  - intros [fuel H]. destruct (Nat.leb_spec (api_levels C ts) limit) as [Hl|Hl]; [|discriminate].
    unfold describe_api_macro in H. destruct (parse_api C ts) as [a|] eqn:Ep; [|discriminate]. exists a.
    rewrite <- (api_levels_depth C ts a Ep). split; [now apply parse_api_spec|]. split; [exact Hl|]. now exists fuel.
  - intros (a & Ha & Hl & fuel & Hd). exists fuel. apply (parse_api_spec C HC) in Ha. rewrite (api_levels_depth C ts a Ha).
    rewrite (proj2 (Nat.leb_le _ _) Hl). unfold describe_api_macro. now rewrite Ha.
Qed.
Lemma beyond_limit limit C E fuel reason ts a : rust_like C -> invocation C ts a -> limit < api_depth (url_segment C) a ->
  limited_api_macro limit C E fuel reason ts = Rejected.
Proof.
  intros HC Ha Hl. apply (parse_api_spec C HC) in Ha. unfold limited_api_macro. rewrite (api_levels_depth C ts a Ha).
  now rewrite (proj2 (Nat.leb_gt _ _) Hl).
Qed.
Lemma within_limit limit C E fuel reason ts a : rust_like C -> invocation C ts a -> api_depth (url_segment C) a <= limit ->
  limited_api_macro limit C E fuel reason ts = describe_api_macro C E fuel reason ts.
Proof.
  intros HC Ha Hl. apply (parse_api_spec C HC) in Ha. unfold limited_api_macro. rewrite (api_levels_depth C ts a Ha).
  now rewrite (proj2 (Nat.leb_le _ _) Hl).
Qed.

(** ** a url of any length *)
Definition part : tree := TkLit (TlStr (u "a")).
Fixpoint long_tokens (n : nat) : list tree := match n with O => [part] | S n' => part :: tk_pu "/" :: long_tokens n' end.
Fixpoint long_url (n : nat) : list utok := match n with O => [UTok part] | S n' => UTok part :: USlash :: long_url n' end.
Definition long_source (n : nat) : list tree :=
  [tk_id "paths"; COLON_TK; TkGr Brace [TkGr Paren (long_tokens n); COLON_TK; TkGr Brace []]].
Definition long_api (n : nat) : api := [ScPaths [Build_path_decl_of (long_url n) []]].
Lemma long_invocation C n : invocation C (long_source n) (long_api n).
Proof.
  split; [|discriminate]. apply cl_last. eexists. split; [reflexivity|]. eexists. split; [reflexivity|]. left. apply cl_last.
  apply pa; [destruct n; discriminate| |constructor].
  induction n as [|n IH]; cbn [long_tokens long_url].
  - constructor; [|constructor]. right. split; [discriminate|reflexivity].
  - constructor; [right; split; [discriminate|reflexivity]|]. constructor; [now left|exact IH].
Qed.
Lemma long_split n : split_url (long_url n) = repeat [part] (S n).
Proof. induction n as [|n IH]; [reflexivity|]. cbn [long_url split_url]. rewrite IH. reflexivity. Qed.
Lemma long_munch n : munch (long_url n) [] = Some (repeat [UTok part] (S n)).
Proof. induction n as [|n IH]; [reflexivity|]. cbn [long_url munch app]. rewrite IH. reflexivity. Qed.
Lemma long_length n : length (long_url n) = 2 * n + 1.
Proof. induction n as [|n IH]; [reflexivity|]. cbn [long_url length]. lia. Qed.
Lemma part_segment C : rust_like C -> url_segment C [part] = Some (SegLit (u "a")).
Proof. intros HC. apply (url_segment_spec C HC). constructor. Qed.
Lemma long_depth C n : rust_like C -> api_depth (url_segment C) (long_api n) = 2 * n + 5.
Proof.
  intros HC. unfold long_api. rewrite one_section. cbn [section_depth]. unfold side_by_side. cbn [map list_max fold_right]. rewrite Nat.max_0_r.
  unfold path_depth. cbn [pd_url pd_props].
  rewrite url_depth_closed.
  - rewrite long_split, long_length. assert (El : forall k, last (repeat [part] (S k)) [] = [part]) by (induction k as [|k IH]; [reflexivity|exact IH]).
    rewrite El. unfold part_depth. rewrite (part_segment C HC). cbn [one_by_one]. lia.
  - rewrite long_split. apply Forall_forall. intros g Hg. apply repeat_spec in Hg. now subst.
Qed.
Lemma flat_map_nothing {A B} (f : A -> list B) l : (forall x, In x l -> f x = []) -> flat_map f l = [].
Proof. induction l as [|x l IH]; intros H; [reflexivity|]. cbn. rewrite (H x (or_introl eq_refl)), IH; [reflexivity|]. intros y Hy. apply H. now right. Qed.
Lemma long_describes C E reason n : rust_like C -> exists d, describes E reason (url_segment C) (long_api n) d.
Proof.
  intros HC.
  assert (Hev : ev_api (url_segment C) (long_api n) = []).
  { unfold long_api, ev_api. cbn [flat_map ev_section]. unfold ev_path. cbn [pd_url pd_props flat_map]. rewrite !app_nil_r. unfold ev_url. rewrite long_split. apply flat_map_nothing. intros g Hg. apply repeat_spec in Hg. subst g.
    now rewrite (part_segment C HC). }
  apply (describes_returns E reason (url_segment C) (long_api n) cx_new).
  - cbn [long_api forallb section_compiles]. unfold path_compiles. cbn [pd_url pd_props forallb]. unfold url_compiles. rewrite long_munch, !Bool.andb_true_r.
    apply forallb_forall. intros g Hg. apply repeat_spec in Hg. subst g. cbn [group_text]. now rewrite (part_segment C HC).
  - now rewrite Hev.
  - rewrite Hev. cbn. exists 0. constructor.
Qed.
Lemma long_fits limit C E reason n : rust_like C -> 2 * n + 5 <= limit -> exists fuel d, limited_api_macro limit C E fuel reason (long_source n) = Done d.
Proof.
  intros HC Hn. destruct (long_describes C E reason n HC) as [d Hd]. assert (Hx : exists a, invocation C (long_source n) a /\ api_depth (url_segment C) a <= limit /\ describes E reason (url_segment C) a d).
  { exists (long_api n). split; [apply long_invocation|]. split; [now rewrite long_depth|exact Hd]. }
  apply (limited_document limit C E reason (long_source n) d HC) in Hx. destruct Hx as [fuel Hx]. eauto.
Qed.
Lemma long_too_deep limit C E reason : rust_like C -> exists ts a d,
  invocation C ts a /\ describes E reason (url_segment C) a d /\ forall fuel, limited_api_macro limit C E fuel reason ts = Rejected.
Proof.
  intros HC. destruct (long_describes C E reason limit HC) as [d Hd]. exists (long_source limit), (long_api limit), d. split; [apply long_invocation|].
  split; [exact Hd|]. intros fuel. apply (beyond_limit limit C E fuel reason _ _ HC (long_invocation C limit)). rewrite (long_depth C limit HC). lia.
Qed.

Lemma limit_monotone limit limit' C E fuel reason ts d : limit <= limit' -> limited_api_macro limit C E fuel reason ts = Done d ->
  limited_api_macro limit' C E fuel reason ts = Done d.
Proof.
  intros Hl. unfold limited_api_macro. destruct (Nat.leb_spec (api_levels C ts) limit) as [H|H]; [|discriminate].
  now rewrite (proj2 (Nat.leb_le (api_levels C ts) limit') (Nat.le_trans _ _ _ H Hl)).
Qed.

(** ** [describe_type!] *)
Lemma limited_model limit C ts m : limited_type_macro limit C ts = Some m <->
  exists d, type_form C ts d /\ type_depth d <= limit /\ m = describe_type d.
Proof.
  unfold limited_type_macro, Syntax.describe_type_macro. split.
  - intros H. destruct (Nat.leb_spec (type_levels C ts) limit) as [Hl|Hl]; [|discriminate]. destruct (parse_type C ts) as [d|] eqn:Ep; [|discriminate].
    injection H as <-. exists d. split; [now apply parse_type_spec|]. split; [|reflexivity]. now rewrite <- (type_levels_depth C ts d Ep).
  - intros (d & Hd & Hl & ->). apply parse_type_spec in Hd. rewrite (type_levels_depth C ts d Hd), (proj2 (Nat.leb_le _ _) Hl). now rewrite Hd.
Qed.
Lemma object_fits d l n : type_depth (DtObject d l) <= n <->
  1 <= n /\ forall k r v, In (k, r, v) l -> (if r : bool then 3 else 2) + value_depth v <= n.
Proof.
  cbn [type_depth]. split.
  - intros H. split; [lia|]. intros k r v Hv.
    assert (Ha : side_by_side (fun p : str * bool * describe_value => (if snd (fst p) then 2 else 1) + value_depth (snd p)) l <= n - 1) by lia.
    rewrite side_by_side_le in Ha. specialize (Ha _ Hv). cbn [fst snd] in Ha. destruct r; lia.
  - intros [Hn H]. assert (side_by_side (fun p : str * bool * describe_value => (if snd (fst p) then 2 else 1) + value_depth (snd p)) l <= n - 1); [|lia].
    apply side_by_side_le. intros [[k r] v] Hv. specialize (H k r v Hv). cbn [fst snd]. destruct r; lia.
Qed.
Fixpoint nested_tokens (n : nat) : list tree :=
  match n with
  | O => [tk_id "boolean"; ARROW; TkGr Brace []]
  | S n' => [tk_id "array"; ARROW; TkGr Brace [tk_id "items"; COLON_TK; TkGr Paren (nested_tokens n')]]
  end.
Fixpoint nested_arrays (n : nat) : describe :=
  match n with O => DtBoolean None | S n' => DtArray None (DvInline (nested_arrays n')) end.
Lemma nested_form C n : type_form C (nested_tokens n) (nested_arrays n).
Proof.
  induction n as [|n IH]; cbn [nested_tokens nested_arrays].
  - apply (tf_boolean C [] None). reflexivity.
  - apply (tf_array C [] None (nested_tokens n) (DvInline (nested_arrays n))); [reflexivity|]. now apply vf_inline.
Qed.
Lemma nested_depth n : type_depth (nested_arrays n) = 2 * n + 1.
Proof. induction n as [|n IH]; [reflexivity|]. cbn [nested_arrays type_depth value_depth]. rewrite IH. lia. Qed.
Lemma nested_too_deep limit C : exists ts d, type_form C ts d /\ limited_type_macro limit C ts = None.
Proof.
  exists (nested_tokens limit), (nested_arrays limit). split; [apply nested_form|].
  destruct (limited_type_macro limit C (nested_tokens limit)) as [m|] eqn:Em; [|reflexivity]. apply limited_model in Em.
  destruct Em as (d & Hd & Hl & _). rewrite (type_one_meaning C _ _ _ Hd (nested_form C limit)), nested_depth in Hl. lia.
Qed.
