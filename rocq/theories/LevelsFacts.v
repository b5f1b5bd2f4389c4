(** The levels of the tokens are those of the syntax they are read as. *)
From Verif Require Import Levels LevelsSpec ApiSpec.
From Coq Require Import Lia.
Local Open Scope string_scope. Local Open Scope list_scope.

(** one call more or less does not matter where the rest of a list is at least one below *)
Definition near (k k' : nat) : Prop := k = k' \/ k <= 1 /\ k' <= 1.
Lemma one_by_one_pos {A} (own hops : A -> nat) l : (forall x, 1 <= hops x) -> 1 <= one_by_one own hops l.
Proof. intros Hh. destruct l as [|x l]; cbn [one_by_one]; [lia|]. specialize (Hh x). lia. Qed.

Section Facts.
  Variable C : caller.

  Lemma weighed {X} (P : X -> weight -> Prop) (rs : list (rule X)) fs ts x :
    Forall2 (fun r f => forall b x, rhs r b = Some x -> P x (f b)) rs fs -> match_rules C rs ts = Some x ->
    exists w, match_rules C (weigh_all rs fs) ts = Some (x, w) /\ P x w.
  Proof.
    intros H. unfold match_rules. induction H as [|r f rs fs Hr H IH]; [discriminate|]. cbn [weigh_all first_rule weigh lhs rhs].
    destruct (matches _ _ _ (lhs r) ts) as [b| | |]; try discriminate; [|exact IH]. intros Hx. rewrite Hx. eexists. split; [reflexivity|]. now apply Hr.
  Qed.
  Definition accounts {X} (own hops : X -> nat) (m : munched X) (w : weight) : Prop :=
    match m with Stop => True | More x _ => near (fst w) (own x) /\ snd w = hops x end.
  Lemma munch_weighed {X} (own hops : X -> nat) rs fs : (forall x, 1 <= hops x) ->
    Forall2 (fun r f => forall b m, rhs r b = Some m -> accounts own hops m (f b)) rs fs ->
    forall n ts l, munch_rules C n rs ts = Some l -> munch_levels C n rs fs ts = one_by_one own hops l.
  Proof.
    intros Hh H. induction n as [|n IH]; intros ts l; [discriminate|]. cbn [munch_rules munch_levels].
    destruct (match_rules C rs ts) as [m|] eqn:Em; [|discriminate].
    destruct (weighed _ _ _ _ _ H Em) as ([k h] & -> & Hw). destruct m as [|x rest].
    - intros [= <-]. reflexivity.
    - destruct (munch_rules C n rs rest) as [l'|] eqn:El; [|discriminate]. intros [= <-]. rewrite (IH _ _ El). cbn [one_by_one].
      destruct Hw as [Hk Eh]. cbn in Hk, Eh. subst h. pose proof (one_by_one_pos own hops l' Hh). specialize (Hh x).
      destruct Hk as [->|Hk]; lia.
  Qed.
  Lemma munch_all_weighed {X} (own hops : X -> nat) rs fs ts l : (forall x, 1 <= hops x) ->
    Forall2 (fun r f => forall b m, rhs r b = Some m -> accounts own hops m (f b)) rs fs ->
    munch_all C rs ts = Some l -> munch_all_levels C rs fs ts = one_by_one own hops l.
  Proof. intros Hh H. now apply munch_weighed. Qed.
  Lemma one_pos {X} (x : X) : 1 <= one_level x. Proof. unfold one_level. lia. Qed.

  Lemma flat_list {X} (l : list X) : one_by_one (fun _ => 0) one_level l = length l + 1.
  Proof. induction l as [|x l IH]; [reflexivity|]. cbn [one_by_one length]. rewrite IH. unfold one_level. lia. Qed.

  (** the rules one by one *)
  Ltac bindings :=
    repeat match goal with
    | H : match ?l with [] => _ | _ :: _ => _ end = Some _ |- _ => destruct l; try discriminate H
    | H : match ?x with BLit _ => _ | BId _ => _ | BToks _ => _ | BRep _ => _ end = Some _ |- _ => destruct x; try discriminate H
    end.
  Lemma flat_rules {X} (rs : list (rule (munched X))) :
    Forall2 (fun r f => forall b m, rhs r b = Some m -> accounts (fun _ => 0) one_level m (f b)) rs (all_flat rs).
  Proof. induction rs as [|r rs IH]; constructor; [|exact IH]. intros b [|x rest] _; cbn; [exact I|]. split; [now left|reflexivity]. Qed.
  Lemma flat_munch {X} (rs : list (rule (munched X))) ts l : munch_all C rs ts = Some l ->
    munch_all_levels C rs (all_flat rs) ts = length l + 1.
  Proof. intros H. rewrite (munch_all_weighed _ _ _ _ _ _ one_pos (flat_rules rs) H). apply flat_list. Qed.

  Lemma mapped_some {X Y} (f : X -> Y) x y : option_map f x = Some y -> exists z, x = Some z /\ f z = y.
  Proof. destruct x as [z|]; [|discriminate]. intros [= <-]. now exists z. Qed.
  Lemma more_some {X} (x : option X) rest m : more x rest = Some m -> exists y, x = Some y /\ m = More y (trees rest).
  Proof. destruct x as [y|]; [|discriminate]. intros [= <-]. now exists y. Qed.

  Ltac opened :=
    repeat match goal with
    | H : more _ _ = Some _ |- _ => apply more_some in H; destruct H as (? & H & ->)
    | H : option_map _ _ = Some _ |- _ => apply mapped_some in H; destruct H as (? & H & <-)
    | H : Syntax.response _ _ _ = Some _ |- _ => unfold Syntax.response in H
    | H : match ?x with Some _ => _ | None => _ end = Some _ |- _ => destruct x eqn:?; try discriminate H
    | H : Some _ = Some _ |- _ => injection H as <-
    end.
  Ltac each H := repeat (apply Forall2_cons; [intros ? ? H; cbn [rhs stop_rule] in H|]); try apply Forall2_nil.
  Ltac rule_by_rule H := each H; try discriminate; try (injection H as <-; exact I); bindings; opened; cbn [accounts fst snd below nth_error flat].
  Ltac plainly := solve [split; [now left|reflexivity]].

  Lemma scheme_accounts :
    Forall2 (fun r f => forall b m, rhs r b = Some m -> accounts scheme_depth one_level m (f b)) (scheme_rules C) (scheme_weights C).
  Proof. rule_by_rule Hm; match goal with E : munch_all _ _ _ = Some _ |- _ => rewrite (flat_munch _ _ _ E) end; plainly. Qed.
  Lemma param_accounts :
    Forall2 (fun r f => forall b m, rhs r b = Some m -> accounts param_depth one_level m (f b)) (param_rules C) (param_weights C).
  Proof.
    rule_by_rule Hm; try (match goal with E : munch_all _ _ _ = Some _ |- _ => unfold param_levels; rewrite (flat_munch _ _ _ E) end; plainly);
      (split; [right; cbn [param_depth length Nat.add]; lia|reflexivity]).
  Qed.
  Lemma params_levels ts l : munch_all C (param_rules C) ts = Some l -> munch_all_levels C (param_rules C) (param_weights C) ts = params_depth l.
  Proof. apply (munch_all_weighed _ _ _ _ _ _ one_pos param_accounts). Qed.
  Lemma security_accounts :
    Forall2 (fun r f => forall b m, rhs r b = Some m -> accounts (fun _ => 0) one_level m (f b)) (security_rules C) security_weights.
  Proof. rule_by_rule Hm. split; [right; destruct l; cbn [entries_levels fst]; lia|destruct l; reflexivity]. Qed.
  Lemma security_levels ts l : munch_all C (security_rules C) ts = Some l ->
    munch_all_levels C (security_rules C) security_weights ts = length l + 1.
  Proof. intros H. rewrite (munch_all_weighed _ _ _ _ _ _ one_pos security_accounts H). apply flat_list. Qed.
  Lemma op_hops_pos {T} (p : op_prop T) : 1 <= op_hops p.
  Proof. destruct p as [| | | | | | | | |c d [| | |]]; cbn; lia. Qed.

  Section Nested.
    Variable paths : list tree -> option (list path_decl).
    Variable levels : list tree -> nat.
    Notation pdepth := (path_depth (url_segment C) (callback_depth (url_segment C))).
    Hypothesis Hpaths : forall ts l, paths ts = Some l -> levels ts = 1 + side_by_side pdepth l.
    Lemma callback_accounts :
      Forall2 (fun r f => forall b m, rhs r b = Some m -> accounts (callback_depth (url_segment C)) one_level m (f b))
        (callback_rules paths) (callback_weights levels).
    Proof. rule_by_rule Hm; match goal with E : paths _ = Some _ |- _ => rewrite (Hpaths _ _ E) end; plainly. Qed.
    Lemma op_accounts :
      Forall2 (fun r f => forall b m, rhs r b = Some m -> accounts (op_depth (callback_depth (url_segment C))) op_hops m (f b))
        (op_rules C paths) (op_weights C paths levels).
    Proof.
      rule_by_rule Hm; try plainly.
      - rewrite (params_levels _ _ Hm). plainly.
      - rewrite (munch_all_weighed _ _ _ _ _ _ one_pos callback_accounts Hm). plainly.
      - rewrite (security_levels _ _ Hm). plainly.
      - rewrite (flat_munch _ _ _ Hm). plainly.
    Qed.
    Lemma path_accounts :
      Forall2 (fun r f => forall b m, rhs r b = Some m -> accounts (path_prop_depth (callback_depth (url_segment C))) one_level m (f b))
        (path_rules C paths) (path_weights C paths levels).
    Proof.
      rule_by_rule Hm.
      - unfold path_field in Hm. destruct (str_eqb s (u "summary")); opened; [plainly|]. destruct (str_eqb s (u "description")); opened; plainly.
      - rewrite (params_levels _ _ Hm). plainly.
      - match goal with E : munch_all _ (op_rules _ _) _ = Some _ |- _ => rewrite (munch_all_weighed _ _ _ _ _ _ op_hops_pos op_accounts E) end. plainly.
    Qed.
    Lemma url_levels_depth rest : forall current, url_levels C rest current = url_depth (url_segment C) (map url_token rest) current.
    Proof.
      induction rest as [|t rest IH]; intros current; [reflexivity|]. cbn [url_levels url_depth map]. destruct (url_token t) as [|t'] eqn:Et.
      - assert (t = tk_pu "/") as ->.
        { destruct t; unfold url_token in Et; try discriminate Et. destruct (str_eqb s (u "/")) eqn:Es; [|discriminate Et]. apply str_eqb_eq in Es. now subst. }
        destruct current; rewrite IH; reflexivity.
      - assert (t' = t) as ->. { destruct t; unfold url_token in Et; try congruence. destruct (str_eqb s (u "/")); congruence. }
        rewrite IH. reflexivity.
    Qed.
    Lemma path_item_depth b d : path_item C paths b = Some d -> path_item_levels C paths levels b = pdepth d.
    Proof.
      unfold path_item, path_item_levels. intros Hm. bindings. opened.
      rewrite (munch_all_weighed _ _ _ _ _ _ one_pos path_accounts Hm), url_levels_depth. reflexivity.
    Qed.
    Lemma all_items {A B} (f : A -> option B) (g : A -> nat) (h : B -> nat) l l' : (forall a b, f a = Some b -> g a = h b) ->
      all_some f l = Some l' -> list_max (map g l) = side_by_side h l'.
    Proof.
      intros H. revert l'. induction l as [|a l IH]; intros l'; cbn [all_some]; [intros [= <-]; reflexivity|].
      destruct (f a) as [b|] eqn:Ef; [|discriminate]. destruct (all_some f l) as [bs|]; [|discriminate]. intros [= <-].
      unfold side_by_side in *. cbn [map]. change (list_max (g a :: map g l)) with (Nat.max (g a) (list_max (map g l))).
      rewrite (IH _ eq_refl), (H _ _ Ef). reflexivity.
    Qed.
    Lemma call_weighed {X} (own : X -> nat) rs fs ts x :
      Forall2 (fun r f => forall b x, rhs r b = Some x -> fst (f b) = own x) rs fs -> match_rules C rs ts = Some x -> call_levels C rs fs ts = S (own x).
    Proof. intros H Hx. destruct (weighed (fun x w => fst w = own x) _ _ _ _ H Hx) as ([k h] & E & <-). unfold call_levels. now rewrite E. Qed.
    Lemma called {X} (own : X -> nat) rs fs ts x : match_rules C rs ts = Some x ->
      Forall2 (fun r f => forall b x, rhs r b = Some x -> fst (f b) = own x) rs fs -> call_levels C rs fs ts = S (own x).
    Proof. intros H H'. now apply call_weighed. Qed.
    Lemma paths_depth ts l : match_rules C (paths_rules C paths) ts = Some l ->
      call_levels C (paths_rules C paths) (paths_weights C paths levels) ts = 1 + side_by_side pdepth l.
    Proof.
      apply call_weighed. each Hm. bindings. cbn [fst]. exact (all_items _ _ _ _ _ path_item_depth Hm).
    Qed.
  End Nested.
  Notation pdepth := (path_depth (url_segment C) (callback_depth (url_segment C))).
  Lemma paths_levels_depth n : forall ts l, parse_paths C n ts = Some l -> paths_levels C n ts = 1 + side_by_side pdepth l.
  Proof. induction n as [|n IH]; intros ts l; [discriminate|]. cbn [parse_paths paths_levels]. now apply paths_depth. Qed.
  Lemma all_some_nil {A B} (f : A -> option B) l l' : all_some f l = Some l' -> (l = [] <-> l' = []).
  Proof.
    destruct l as [|a l]; cbn [all_some]; [now intros [= <-]|]. destruct (f a); [|discriminate]. destruct (all_some f l); [|discriminate].
    intros [= <-]. split; discriminate.
  Qed.
  Lemma section_levels_depth b s : section C b = Some s -> section_levels C b = section_depth (url_segment C) s.
  Proof.
    unfold section, section_levels. intros Hm. bindings. cbv zeta in *.
    destruct (str_eqb s0 (u "info")).
    { opened. rewrite (called (fun x => match x with [] => 0 | _ => 1 end) _ _ _ _ Hm). 
      - destruct x; reflexivity.
      - each Hy. bindings. pose proof (all_some_nil _ _ _ Hy) as Hn. destruct l0; cbn [fst entries_levels].
        + now rewrite (proj1 Hn eq_refl).
        + lazymatch type of Hn with _ <-> ?y = [] => destruct y; [discriminate (proj2 Hn eq_refl)|reflexivity] end. }
    destruct (str_eqb s0 (u "tags")).
    { opened. rewrite (called (fun x => 0) _ _ _ _ Hm); [reflexivity|]. each Hy. reflexivity. }
    destruct (str_eqb s0 (u "servers")).
    { opened. rewrite (called (fun x => match x with [] => 0 | _ => 1 end) _ _ _ _ Hm). 
      - destruct x; reflexivity.
      - each Hy. bindings. pose proof (all_some_nil _ _ _ Hy) as Hn. destruct l0; cbn [fst entries_levels].
        + now rewrite (proj1 Hn eq_refl).
        + lazymatch type of Hn with _ <-> ?y = [] => destruct y; [discriminate (proj2 Hn eq_refl)|reflexivity] end. }
    destruct (str_eqb s0 (u "security_schemes")).
    { opened. rewrite (munch_all_weighed _ _ _ _ _ _ one_pos scheme_accounts Hm). reflexivity. }
    destruct (str_eqb s0 (u "paths")); [|discriminate]. opened. apply (paths_levels_depth _ _ _ Hm).
  Qed.
  Lemma api_levels_depth ts a : parse_api C ts = Some a -> api_levels C ts = api_depth (url_segment C) a.
  Proof.
    apply call_weighed. each Hm. bindings. cbn [fst]. exact (all_items _ _ _ _ _ section_levels_depth Hm).
  Qed.

  (** [describe_type!] *)
  Section NestedType.
    Variable nested : list tree -> option describe.
    Variable levels : list tree -> nat.
    Hypothesis Hn : forall ts d, nested ts = Some d -> levels ts = type_depth d.
    Lemma value_levels_depth ts v : match_rules C (value_rules C nested) ts = Some v -> value_levels C nested levels ts = value_depth v.
    Proof.
      intros H. unfold value_levels. rewrite (called (fun v => value_depth v - 1) _ _ _ _ H).
      - destruct v; cbn; lia.
      - each Hm; bindings; opened; try reflexivity. cbn [fst value_depth]. rewrite (Hn _ _ Hm). lia.
    Qed.
    Lemma property_levels_depth b p : property C nested b = Some p ->
      property_levels C nested levels b = (if snd (fst p) then 2 else 1) + value_depth (snd p).
    Proof.
      unfold property, property_levels. intros Hm. bindings. destruct (required_mark _) as [r|] eqn:Er; [|discriminate]. opened.
      match goal with E : match_rules _ _ _ = Some _ |- _ => rewrite (value_levels_depth _ _ E) end. cbn [fst snd].
      match goal with |- context [S (value_depth _)] => idtac end. destruct l as [|r0 l].
      - injection Er as <-. reflexivity.
      - cbn [required_mark] in Er. bindings. destruct t; try discriminate Er. bindings. match type of Er with (if ?c then _ else _) = _ => destruct c; [|discriminate Er] end. injection Er as <-. reflexivity.
    Qed.
    Lemma type_call_depth ts d : match_rules C (type_rules C nested) ts = Some d ->
      call_levels C (type_rules C nested) (type_weights C nested levels) ts = type_depth d.
    Proof.
      intros H. rewrite (called (fun d => type_depth d - 1) _ _ _ _ H).
      - destruct d; cbn [type_depth]; lia.
      - each Hm; bindings; opened; try reflexivity.
        + match goal with E : match_rules _ _ _ = Some _ |- _ => cbn [fst below nth_error]; rewrite (value_levels_depth _ _ E) end. cbn [type_depth]. lia.
        + match goal with E : all_some _ _ = Some _ |- _ => cbn [fst]; rewrite (all_items _ _ _ _ _ property_levels_depth E) end. cbn [type_depth]. lia.
    Qed.
  End NestedType.
  Lemma type_levels_n_depth n : forall ts d, parse_type_n C n ts = Some d -> type_levels_n C n ts = type_depth d.
  Proof. induction n as [|n IH]; intros ts d; [discriminate|]. cbn [parse_type_n type_levels_n]. now apply type_call_depth. Qed.
  Lemma type_levels_depth ts d : parse_type C ts = Some d -> type_levels C ts = type_depth d.
  Proof. apply type_levels_n_depth. Qed.
End Facts.
