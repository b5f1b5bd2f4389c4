(** A checker for the conditions of SoundSpec.v ([supported_inside], [derived_inside]), used for the examples: it
    decides them by computation for concrete inputs.  It may refuse inputs that meet the conditions (recursive ones,
    for which it runs out of fuel). *)
From Verif Require Import Attr AttrSpec AttrFacts Ast Derive DeriveSpec Schema SchemaSpec Gen GenSpec
  DeriveFacts DeriveFacts5 SoundSpec SoundFacts3.
From Coq Require Import Arith Lia ZArith.

Section Check.
  Variable pe pp : str -> bool.
  Variable uni : N -> bool.
  Variable ev : str -> str.
  Variable D : tid -> derive_input ty.
  Variable E : env.
  Variable known : tid -> bool.
  Hypothesis known_derived : forall id, known id = true -> derive pe pp uni ev (D id) = DOk (E id).
  Notation said := (said pe pp).

  (** ** What is said *)
  Definition saids (pos : position) (l : list attribute) : option (list setting) :=
    match items_written l with Some its => Some (flat_map (item_set pe pp pos) its) | None => None end.
  Lemma saids_iff pos l xs x : saids pos l = Some xs -> (said pos l x <-> In x xs).
  Proof.
    unfold saids. destruct (items_written l) eqn:Ei; [|discriminate]. intros [= <-]. now apply said_decide.
  Qed.

  Definition pick {X} (sel : setting -> option X) (xs : list setting) : list X :=
    flat_map (fun x => match sel x with Some y => [y] | None => [] end) xs.
  Lemma pick_In {X} (sel : setting -> option X) xs y : In y (pick sel xs) <-> exists x, In x xs /\ sel x = Some y.
  Proof.
    unfold pick. rewrite in_flat_map. split; intros (x & Hx & Hy); exists x; (split; [exact Hx|]).
    - destruct (sel x); [destruct Hy as [->|[] ]; reflexivity|destruct Hy].
    - rewrite Hy. now left.
  Qed.
  Definition sel_rename x := match x with SRename s => Some s | _ => None end.
  Definition sel_rule x := match x with SRenameAll s => Some s | _ => None end.
  Definition sel_tag x := match x with STag s => Some s | _ => None end.
  Definition sel_content x := match x with SContent s => Some s | _ => None end.
  Definition sel_type x := match x with SType s => Some s | _ => None end.
  Definition flag (x y : setting) : option unit :=
    match x, y with
    | STransparent, STransparent | SUntagged, SUntagged | SRepr, SRepr | SSkip, SSkip | SFlatten, SFlatten => Some tt
    | _, _ => None
    end.
  Definition has (x : setting) (xs : list setting) : bool := match pick (flag x) xs with [] => false | _ => true end.
  Lemma has_In x xs : In x [STransparent; SUntagged; SRepr; SSkip; SFlatten] -> (has x xs = true <-> In x xs).
  Proof.
    intros Hx. unfold has. split.
    - destruct (pick (flag x) xs) as [|y l] eqn:Ep; [discriminate|]. intros _.
      assert (Hy : In y (pick (flag x) xs)) by (rewrite Ep; now left). apply pick_In in Hy as (z & Hz & Hf).
      destruct Hx as [<-|[<-|[<-|[<-|[<-|[] ] ] ] ] ]; destruct z; try discriminate; exact Hz.
    - intros Hi. assert (Hy : In tt (pick (flag x) xs)).
      { apply pick_In. exists x. split; [exact Hi|]. destruct Hx as [<-|[<-|[<-|[<-|[<-|[] ] ] ] ] ]; reflexivity. }
      destruct (pick (flag x) xs); [destruct Hy|reflexivity].
  Qed.
  Lemma has_said pos l xs x : In x [STransparent; SUntagged; SRepr; SSkip; SFlatten] -> saids pos l = Some xs ->
    (has x xs = true <-> said pos l x).
  Proof. intros Hx Hs. rewrite (saids_iff _ _ _ _ Hs). now apply has_In. Qed.
  Lemma hasnt_said pos l xs x : In x [STransparent; SUntagged; SRepr; SSkip; SFlatten] -> saids pos l = Some xs ->
    (has x xs = false <-> ~ said pos l x).
  Proof. intros Hx Hs. rewrite <- (has_said _ _ _ _ Hx Hs). destruct (has x xs); split; congruence. Qed.
  Lemma pick_nil {X} (sel : setting -> option X) xs x y : pick sel xs = [] -> sel x = Some y -> ~ In x xs.
  Proof. intros Hp Hs Hi. assert (In y (pick sel xs)) by (apply pick_In; eauto). rewrite Hp in *. contradiction. Qed.
  Lemma pick_one {X} (sel : setting -> option X) xs y : pick sel xs = [y] -> exists x, In x xs /\ sel x = Some y.
  Proof. intros Hp. apply pick_In. rewrite Hp. now left. Qed.
  Lemma pick_only {X} (sel : setting -> option X) xs y x y' : pick sel xs = [y] -> In x xs -> sel x = Some y' -> y' = y.
  Proof.
    intros Hp Hi Hs. assert (H : In y' (pick sel xs)) by (apply pick_In; eauto). rewrite Hp in H. destruct H as [->|[] ]. reflexivity.
  Qed.

  (** ** Names *)
  Definition rule_of (pos : position) (l : list attribute) : option rename_rule :=
    match saids pos l with
    | Some xs => match pick sel_rule xs with [] => Some RNone | [r] => Some r | _ => None end
    | None => None
    end.
  Lemma rule_of_ok pos l r r' : rule_of pos l = Some r -> has_rule pe pp pos l r' -> r' = r.
  Proof.
    unfold rule_of. destruct (saids pos l) as [xs|] eqn:Es; [|discriminate]. destruct (pick sel_rule xs) as [|r0 [|? ?] ] eqn:Ep; try discriminate.
    - intros [= <-] [H|[-> _] ]; [|reflexivity]. apply (saids_iff _ _ _ _ Es) in H. exfalso. eapply pick_nil; eauto. reflexivity.
    - intros [= <-] [H|[-> H] ].
      + apply (saids_iff _ _ _ _ Es) in H. eapply pick_only; eauto.
      + exfalso. destruct (pick_one _ _ _ Ep) as (x & Hx & Hsel). destruct x; try discriminate. injection Hsel as ->.
        apply (H r0). now apply (saids_iff _ _ _ _ Es).
  Qed.
  Definition name_of (r : rename_rule) (k : nat) (f : field_syn ty) : option str :=
    match saids PField (fs_attrs f) with
    | Some xs => match pick sel_rename xs with [] => apply_to_field r (source_name k f) | [n] => Some n | _ => None end
    | None => None
    end.
  Lemma name_of_ok r k f n n' : name_of r k f = Some n -> field_named pe pp r k f n' -> n' = n.
  Proof.
    unfold name_of. destruct (saids _ _) as [xs|] eqn:Es; [|discriminate]. destruct (pick sel_rename xs) as [|n0 [|? ?] ] eqn:Ep; try discriminate.
    - intros Hn [H|_ H]; [|congruence]. apply (saids_iff _ _ _ _ Es) in H. exfalso. eapply pick_nil; eauto. reflexivity.
    - intros [= <-] [H|H _].
      + apply (saids_iff _ _ _ _ Es) in H. eapply pick_only; eauto.
      + exfalso. destruct (pick_one _ _ _ Ep) as (x & Hx & Hsel). destruct x; try discriminate. injection Hsel as ->.
        apply (H n0). now apply (saids_iff _ _ _ _ Es).
  Qed.
  Definition skips (pos : position) (l : list attribute) : option bool :=
    match saids pos l with Some xs => Some (has SSkip xs) | None => None end.
  Lemma skips_ok pos l b : skips pos l = Some b -> if b then said pos l SSkip else ~ said pos l SSkip.
  Proof.
    unfold skips. destruct (saids pos l) as [xs|] eqn:Es; [|discriminate]. intros [= <-].
    assert (Hi : In SSkip [STransparent; SUntagged; SRepr; SSkip; SFlatten]) by (cbn; tauto).
    pose proof (has_said _ _ _ _ Hi Es). pose proof (hasnt_said _ _ _ _ Hi Es). destruct (has SSkip xs); tauto.
  Qed.
  Fixpoint members (r : rename_rule) (k : nat) (fs : list (field_syn ty)) : option (list (str * field_syn ty)) :=
    match fs with
    | [] => Some []
    | f :: fs' =>
        match skips PField (fs_attrs f), members r (Datatypes.S k) fs' with
        | Some true, Some l => Some l
        | Some false, Some l => match name_of r k f with Some n => Some ((n, f) :: l) | None => None end
        | _, _ => None
        end
    end.
  Lemma members_ok r fs : forall k l l', members r k fs = Some l -> serialised_fields pe pp r k fs l' -> l' = l.
  Proof.
    induction fs as [|f fs IH]; intros k l l' Hm Hl; inversion Hl as [|? ? ? ? Hsk Hr|? ? n ? ? Hsk Hn Hr]; subst; cbn in Hm.
    - congruence.
    - destruct (skips PField (fs_attrs f)) as [b|] eqn:Eb; [|discriminate]. apply skips_ok in Eb.
      destruct (members r (Datatypes.S k) fs) as [lm|] eqn:Em; [|now destruct b]. destruct b; [|contradiction]. injection Hm as <-. eapply IH; eauto.
    - destruct (skips PField (fs_attrs f)) as [b|] eqn:Eb; [|discriminate]. apply skips_ok in Eb.
      destruct (members r (Datatypes.S k) fs) as [lm|] eqn:Em; [|now destruct b]. destruct b; [contradiction|].
      destruct (name_of r k f) as [nm|] eqn:En; [|discriminate]. injection Hm as <-. f_equal; [|eapply IH; eauto].
      now rewrite (name_of_ok _ _ _ _ _ En Hn).
  Qed.

  (** ** Fields *)
  Definition plainb (f : field_syn ty) : bool :=
    match saids PField (fs_attrs f) with
    | Some xs => negb (has SFlatten xs) && forallb (fun t => match t with ETAny => true | _ => false end) (pick sel_type xs)
    | None => false
    end.
  Lemma plainb_ok f : plainb f = true -> field_plain pe pp D f.
  Proof.
    unfold plainb. destruct (saids _ _) as [xs|] eqn:Es; [|discriminate]. intros H. apply andb_prop in H as [H1 H2]. split.
    - apply (hasnt_said _ _ _ SFlatten ltac:(cbn; tauto) Es). now destruct (has SFlatten xs).
    - intros t Ht. apply (saids_iff _ _ _ _ Es) in Ht. rewrite forallb_forall in H2.
      specialize (H2 t (proj2 (pick_In sel_type xs t) (ex_intro _ _ (conj Ht eq_refl)))). left. now destruct t.
  Qed.
  Definition keptb (f : field_syn ty) : bool := match skips PField (fs_attrs f) with Some false => true | _ => false end.
  Definition skippedb (f : field_syn ty) : bool := match skips PField (fs_attrs f) with Some true => true | _ => false end.
  Lemma keptb_ok f : keptb f = true -> ~ field_skipped pe pp f.
  Proof. unfold keptb. destruct (skips _ _) as [[|]|] eqn:Eb; try discriminate. intros _. exact (skips_ok _ _ _ Eb). Qed.
  Lemma skippedb_ok f : skippedb f = true -> field_skipped pe pp f.
  Proof. unfold skippedb. destruct (skips _ _) as [[|]|] eqn:Eb; try discriminate. intros _. exact (skips_ok _ _ _ Eb). Qed.

  Fixpoint distinct (l : list str) : bool :=
    match l with [] => true | x :: l' => negb (existsb (str_eqb x) l') && distinct l' end.
  Lemma distinct_ok l : distinct l = true -> NoDup l.
  Proof.
    induction l as [|x l IH]; cbn; [constructor|]. intros H. apply andb_prop in H as [H1 H2]. constructor; auto.
    intros Hi. assert (existsb (str_eqb x) l = true); [|now rewrite H in H1]. apply existsb_exists. exists x. split; [exact Hi|]. now apply str_eqb_eq.
  Qed.
  Definition avoids (avoid : option str) (n : str) : bool := match avoid with Some a => negb (str_eqb a n) | None => true end.
  Definition membersb (pos : position) (attrs : list attribute) (fs : list (field_syn ty)) (avoid : option str) : bool :=
    match rule_of pos attrs with
    | Some r =>
        match members r 0 fs with
        | Some l => distinct (map fst l) && forallb (fun nf => plainb (snd nf) && avoids avoid (fst nf)) l
        | None => false
        end
    | None => false
    end.
  Lemma membersb_ok pos attrs fs avoid (P : str -> Prop) : membersb pos attrs fs avoid = true -> (forall n, P n -> avoid = Some n) ->
    members_plain pe pp D pos attrs fs P.
  Proof.
    unfold membersb. destruct (rule_of pos attrs) as [r|] eqn:Er; [|discriminate]. destruct (members r 0 fs) as [l|] eqn:El; [|discriminate].
    intros H HP. apply andb_prop in H as [H1 H2]. intros r' l' Hr' Hl'. rewrite (rule_of_ok _ _ _ _ Er Hr') in Hl'.
    rewrite (members_ok _ _ _ _ _ El Hl'). split; [now apply distinct_ok|]. intros n f Hin. rewrite forallb_forall in H2. specialize (H2 _ Hin).
    apply andb_prop in H2 as [H2 H3]. split; [now apply plainb_ok|]. intros Hn. cbn in H3. rewrite (HP _ Hn) in H3. cbn in H3.
    now rewrite (proj2 (str_eqb_eq n n) eq_refl) in H3.
  Qed.

  Lemma plain_described {tags} pos attrs fs P : members_plain pe pp D pos attrs fs P -> members_described pe pp D tags pos attrs fs P.
  Proof. intros H rule l Hr Hl. destruct (H rule l Hr Hl) as [Hn Hp]. split; [exact Hn|]. intros n f Hin. destruct (Hp n f Hin). auto. Qed.

  Fixpoint taggableb (tag : str) (t : ty) : bool :=
    match t with
    | TWrap _ t' => taggableb tag t'
    | TDict _ _ => true
    | TNamed id => match di_data (D id) with
                   | DaStruct (FNamed fs) => membersb (PContainer DkNamed) (di_attrs (D id)) fs (Some tag)
                   | _ => false
                   end
    | _ => false
    end.
  Lemma taggableb_ok tag t : taggableb tag t = true -> taggable pe pp D tag t.
  Proof.
    induction t; cbn; try discriminate; intros H.
    - constructor. auto.
    - constructor.
    - destruct (di_data (D id)) as [|[fs|fs|]|] eqn:Ed; try discriminate. apply (tb_struct _ _ _ _ _ fs); auto. intros rule l Hr Hl Hin.
      assert (Hm : members_plain pe pp D (PContainer DkNamed) (di_attrs (D id)) fs (eq tag)) by (eapply membersb_ok; [exact H|congruence]).
      apply in_map_iff in Hin as ([n f] & Hn & Hin). destruct (Hm _ _ Hr Hl) as [_ Ha]. now apply (proj2 (Ha _ _ Hin)).
  Qed.

  (** ** Enums *)
  Definition unitb (v : variant_syn ty) : bool := match vs_fields v with FUnit => true | _ => false end.
  Lemma unitb_ok v : unitb v = true <-> unit_variant v.
  Proof. unfold unitb, unit_variant. destruct (vs_fields v); split; congruence. Qed.
  Definition rep_said (l : list attribute) : option representation :=
    match saids (PContainer DkEnum) l with
    | Some xs =>
        match pick sel_tag xs, pick sel_content xs, has SUntagged xs with
        | [], [], false => Some RepExternal
        | [], [], true => Some RepUntagged
        | t :: _, [], false => Some (RepInternal t)
        | t :: _, c :: _, false => Some (RepAdjacent t c)
        | _, _, _ => None
        end
    | None => None
    end.
  Lemma rep_said_ok l rep : rep_said l = Some rep -> represents pe pp l rep.
  Proof.
    unfold rep_said. destruct (saids _ l) as [xs|] eqn:Es; [|discriminate].
    pose proof (hasnt_said _ _ _ SUntagged ltac:(cbn; tauto) Es) as Hn. pose proof (has_said _ _ _ SUntagged ltac:(cbn; tauto) Es) as Hh.
    assert (Ht : forall t, said (PContainer DkEnum) l (STag t) <-> In t (pick sel_tag xs)).
    { intros t. rewrite (saids_iff _ _ _ _ Es), pick_In. split; [intros H; now exists (STag t)|]. intros (x & Hx & Hs). destruct x; try discriminate. now injection Hs as ->. }
    assert (Hc : forall t, said (PContainer DkEnum) l (SContent t) <-> In t (pick sel_content xs)).
    { intros t. rewrite (saids_iff _ _ _ _ Es), pick_In. split; [intros H; now exists (SContent t)|]. intros (x & Hx & Hs). destruct x; try discriminate. now injection Hs as ->. }
    destruct (pick sel_tag xs) as [|t ts], (pick sel_content xs) as [|c cs], (has SUntagged xs); try discriminate; intros [= <-].
    - apply rep_untagged; [intros x Hx; now apply Ht in Hx|intros x Hx; now apply Hc in Hx|tauto].
    - apply rep_external; [intros x Hx; now apply Ht in Hx|intros x Hx; now apply Hc in Hx|tauto].
    - apply rep_internal; [apply Ht; now left|intros x Hx; now apply Hc in Hx|tauto].
    - apply rep_adjacent; [apply Ht; now left|apply Hc; now left|tauto].
  Qed.
  Definition tag_of (rep : representation) : option str := match rep with RepInternal t => Some t | _ => None end.
  Definition variantb (rep : representation) (v : variant_syn ty) : bool :=
    match vs_fields v with
    | FUnit => match rep with RepInternal _ => true | _ => false end
    | FUnnamed [f] => keptb f && plainb f && match rep with RepInternal t => taggableb t (fs_ty f) | _ => true end
    | FUnnamed fs => forallb (fun f => skippedb f || plainb f) fs
    | FNamed fs => match rep with RepAdjacent _ _ => false | _ => membersb PVariant (vs_attrs v) fs (tag_of rep) end
    end.
  Lemma plain_or_skipped fs : forallb (fun f => skippedb f || plainb f) fs = true -> forall f, In f fs -> ~ field_skipped pe pp f -> field_plain pe pp D f.
  Proof.
    intros H f Hf Hs. rewrite forallb_forall in H. specialize (H _ Hf). apply orb_prop in H as [H|H]; [|now apply plainb_ok].
    now apply skippedb_ok in H.
  Qed.
  Lemma variantb_ok {tags} rep v : variantb rep v = true -> variant_supported pe pp D tags rep v.
  Proof.
    unfold variantb, variant_supported. destruct (vs_fields v) as [fs|[|f [|f2 fs] ]|].
    - intros H. assert (Hr : forall t c, rep <> RepAdjacent t c) by (now intros t c ->). split; [exact Hr|].
      apply plain_described, (membersb_ok _ _ _ (tag_of rep)); [|now intros n ->]. destruct rep; try exact H. discriminate.
    - intros H. now apply plain_or_skipped.
    - intros H. apply andb_prop in H as [H H3]. apply andb_prop in H as [H1 H2]. split; [now apply keptb_ok|]. split; [now apply plainb_ok|].
      intros t ->. now apply taggableb_ok.
    - intros H. now apply plain_or_skipped.
    - destruct rep; try discriminate. eauto.
  Qed.

  Definition inputb (i : derive_input ty) : bool :=
    match di_data i with
    | DaStruct (FNamed fs) =>
        match saids (PContainer DkNamed) (di_attrs i) with
        | Some xs => negb (has STransparent xs) && match pick sel_tag xs with [] => true | _ => false end &&
            membersb (PContainer DkNamed) (di_attrs i) fs None
        | None => false
        end
    | DaStruct (FUnnamed [f]) =>
        match saids (PContainer DkOther) (di_attrs i) with
        | Some xs => keptb f && plainb f && match pick sel_type xs with [] => true | _ => false end
        | None => false
        end
    | DaStruct (FUnnamed fs) =>
        match saids (PContainer DkOther) (di_attrs i) with
        | Some xs => negb (has STransparent xs) && forallb (fun f => skippedb f || plainb f) fs
        | None => false
        end
    | DaEnum vs =>
        match saids (PContainer DkEnum) (di_attrs i), rep_said (di_attrs i) with
        | Some xs, Some rep =>
            if forallb unitb vs then
              if has SRepr xs then forallb (fun v => match vs_discriminant v with Some _ => true | None => false end) vs
              else match rep with RepExternal => true | _ => false end
            else
              match rep with RepAdjacent t c => negb (str_eqb t c) | _ => true end &&
              forallb (fun v => match skips PVariant (vs_attrs v) with Some true => true | _ => false end || variantb rep v) vs
        | _, _ => false
        end
    | _ => false
    end.
  Lemma inputb_ok {tags} i : inputb i = true -> input_supported pe pp D tags i.
  Proof.
    unfold inputb. destruct (di_data i) as [vs|[fs|fs|]|] eqn:Ed; try discriminate.
    - destruct (saids _ _) as [xs|] eqn:Es; [|discriminate]. destruct (rep_said _) as [rep|] eqn:Er; [|discriminate].
      apply rep_said_ok in Er. destruct (forallb unitb vs) eqn:Eu.
      + assert (Hu : forall v, In v vs -> unit_variant v) by (rewrite forallb_forall in Eu; intros v Hv; apply unitb_ok; auto).
        destruct (has SRepr xs) eqn:Eh; intros H.
        * apply (has_said _ _ _ SRepr ltac:(cbn; tauto) Es) in Eh. eapply is_ints; eauto; [now split|].
          intros v Hv. rewrite forallb_forall in H. specialize (H _ Hv). now destruct (vs_discriminant v).
        * apply (hasnt_said _ _ _ SRepr ltac:(cbn; tauto) Es) in Eh. destruct rep; try discriminate. eapply is_units; eauto.
      + intros H. apply andb_prop in H as [H1 H2]. assert (exists w, In w vs /\ unitb w = false) as (w & Hw & Hu).
        { clear -Eu. induction vs as [|v vs IH]; [discriminate|]. cbn in Eu. destruct (unitb v) eqn:Ev.
          - destruct (IH Eu) as (w & Hw & Hu). exists w. split; [now right|exact Hu].
          - exists v. split; [now left|exact Ev]. }
        eapply (is_enum _ _ _ _ i vs w rep); eauto.
        * intros Hn. apply unitb_ok in Hn. congruence.
        * intros t c -> ->. now rewrite (proj2 (str_eqb_eq c c) eq_refl) in H1.
        * intros v Hv Hs. rewrite forallb_forall in H2. specialize (H2 _ Hv). apply orb_prop in H2 as [H2|H2]; [|now apply variantb_ok].
          destruct (skips _ _) as [[|]|] eqn:Esk; try discriminate. now apply skips_ok in Esk.
    - destruct (saids _ _) as [xs|] eqn:Es; [|discriminate]. intros H. apply andb_prop in H as [H H3]. apply andb_prop in H as [H1 H2].
      eapply is_struct; eauto.
      + apply (hasnt_said _ _ _ STransparent ltac:(cbn; tauto) Es). now destruct (has STransparent xs).
      + intros t Ht. exfalso. apply (saids_iff _ _ _ _ Es) in Ht. destruct (pick sel_tag xs) eqn:Ep; [|discriminate]. now apply (pick_nil _ _ _ t Ep) in Ht.
      + apply plain_described. eapply membersb_ok; [exact H3|]. intros t Ht. exfalso. apply (saids_iff _ _ _ _ Es) in Ht. destruct (pick sel_tag xs) eqn:Ep; [|discriminate]. now apply (pick_nil _ _ _ t Ep) in Ht.
    - assert (Hmany : length fs <> 1 -> match saids (PContainer DkOther) (di_attrs i) with
        | Some xs => negb (has STransparent xs) && forallb (fun f => skippedb f || plainb f) fs | None => false end = true -> input_supported pe pp D tags i).
      { intros Hlen. destruct (saids _ _) as [xs|] eqn:Es; [|discriminate]. intros H. apply andb_prop in H as [H1 H2]. eapply is_tuple; eauto.
        - apply (hasnt_said _ _ _ STransparent ltac:(cbn; tauto) Es). now destruct (has STransparent xs).
        - now apply plain_or_skipped. }
      destruct fs as [|f [|f2 fs] ]; [now apply Hmany| |now apply Hmany].
      destruct (saids _ _) as [xs|] eqn:Es; [|discriminate]. intros H. apply andb_prop in H as [H H3]. apply andb_prop in H as [H1 H2].
      eapply is_newtype; eauto; [now apply keptb_ok|now apply plainb_ok|].
      intros t Ht. apply (saids_iff _ _ _ _ Es) in Ht. destruct (pick sel_type xs) eqn:Ep; [|discriminate]. now apply (pick_nil _ _ _ t Ep) in Ht.
  Qed.

  (** ** Types *)
  Fixpoint singleb (fuel : nat) (t : ty) : bool :=
    match fuel with
    | O => false
    | Datatypes.S fuel' =>
        match t with
        | TPrim _ | TTuple _ | TSeq _ _ | TDict _ _ => true
        | TWrap _ t' | TOption t' => singleb fuel' t'
        | TNamed id =>
            match di_data (D id) with
            | DaStruct (FNamed _) => true
            | DaStruct (FUnnamed [f]) => singleb fuel' (fs_ty f)
            | DaStruct (FUnnamed _) => true
            | DaEnum vs =>
                match saids (PContainer DkEnum) (di_attrs (D id)), rep_said (di_attrs (D id)) with
                | Some xs, Some rep =>
                    if forallb unitb vs then negb (has SRepr xs)
                    else match rep with RepExternal | RepAdjacent _ _ => true | _ => false end
                | _, _ => false
                end
            | _ => false
            end
        end
    end.
  Lemma singleb_ok fuel : forall t, singleb fuel t = true -> single pe pp D t.
  Proof.
    induction fuel as [|fuel IH]; [discriminate|]. intros t H. cbn in H. destruct t; try (constructor; auto; fail).
    destruct (di_data (D id)) as [vs|[fs|fs|]|] eqn:Ed; try discriminate.
    - destruct (saids _ _) as [xs|] eqn:Es; [|discriminate]. destruct (rep_said _) as [rep|] eqn:Er; [|discriminate].
      apply rep_said_ok in Er. destruct (forallb unitb vs) eqn:Eu.
      + eapply si_units; eauto; [rewrite forallb_forall in Eu; intros v Hv; apply unitb_ok; auto|].
        apply (hasnt_said _ _ _ SRepr ltac:(cbn; tauto) Es). now destruct (has SRepr xs).
      + assert (exists w, In w vs /\ unitb w = false) as (w & Hw & Hu).
        { clear -Eu. induction vs as [|v vs IH]; [discriminate|]. cbn in Eu. destruct (unitb v) eqn:Ev.
          - destruct (IH Eu) as (w & Hw & Hu). exists w. split; [now right|exact Hu].
          - exists v. split; [now left|exact Ev]. }
        assert (Hnu : ~ unit_variant w) by (intros Hn; apply unitb_ok in Hn; congruence).
        destruct rep; try discriminate; [eapply si_external; eauto|eapply si_adjacent; eauto].
    - eapply si_struct; eauto.
    - destruct fs as [|f [|f2 fs] ]; [eapply si_tuple_struct; eauto; cbn; lia|eapply si_newtype; eauto|eapply si_tuple_struct; eauto; cbn; lia].
  Qed.

  Local Opaque singleb.
  Definition children (t : ty) : list ty :=
    match t with
    | TPrim _ => []
    | TWrap _ t' | TOption t' | TSeq _ t' | TDict _ t' => [t']
    | TTuple ts => ts
    | TNamed id =>
        map fs_ty (filter (fun f => negb (skippedb f))
          match di_data (D id) with
          | DaStruct fs => fields_list fs
          | DaEnum vs => flat_map (fun v => fields_list (vs_fields v)) (filter (fun v => negb (match skips PVariant (vs_attrs v) with Some true => true | _ => false end)) vs)
          | DaUnion => []
          end)
    end.
  Lemma children_ok t t' : directly_inside pe pp D t t' -> In t' (children t).
  Proof.
    destruct 1 as [| | | | |id f [Hs Hf] ]; cbn; auto. apply in_map, filter_In. split.
    - destruct (di_data (D id)) as [vs|fs|]; [|exact Hf|contradiction]. destruct Hf as (v & Hv & Hvs & Hf). apply in_flat_map. exists v.
      split; [|exact Hf]. apply filter_In. split; [exact Hv|]. destruct (skips _ _) as [[|]|] eqn:Esk; try reflexivity. now apply skips_ok in Esk.
    - destruct (skippedb f) eqn:Esk; [|reflexivity]. now apply skippedb_ok in Esk.
  Qed.
  Definition tyb (t : ty) : bool :=
    match t with
    | TWrap WTuple1 _ => false
    | TOption t' => singleb 50 t'
    | TNamed id => known id && inputb (D id)
    | _ => true
    end.
  Fixpoint deepb (fuel : nat) (t : ty) : bool :=
    match fuel with O => false | Datatypes.S fuel' => tyb t && forallb (deepb fuel') (children t) end.
  Lemma deepb_inside fuel t t' : deepb fuel t = true -> inside pe pp D t t' -> exists fuel', deepb fuel' t' = true.
  Proof.
    intros H. induction 1 as [|t1 t2 _ [f1 IH] Hd]; [eauto|]. destruct f1 as [|f1]; [discriminate|]. cbn in IH. apply andb_prop in IH as [_ IH].
    rewrite forallb_forall in IH. exists f1. now apply IH, children_ok.
  Qed.
  Lemma tyb_ok {tags} t : tyb t = true -> supported pe pp D tags t.
  Proof.
    destruct t; cbn; auto.
    - now destruct w.
    - apply singleb_ok.
    - intros H. apply andb_prop in H as [_ H]. now apply inputb_ok.
  Qed.
  Lemma deepb_ok {tags} fuel t : deepb fuel t = true -> supported_inside pe pp D tags t /\ derived_inside pe pp uni D ev E t.
  Proof.
    intros H. split.
    - intros t' Hi. destruct (deepb_inside _ _ _ H Hi) as [[|f] H']; [discriminate|]. cbn in H'. apply andb_prop in H' as [H' _]. now apply tyb_ok.
    - intros id Hi. destruct (deepb_inside _ _ _ H Hi) as [[|f] H']; [discriminate|]. cbn in H'. apply andb_prop in H' as [H' _].
      apply andb_prop in H' as [H' _]. now apply known_derived.
  Qed.
End Check.

(** ** Names *)
Definition opt_eqb {X} (eqb : X -> X -> bool) (a b : option X) : bool :=
  match a, b with Some x, Some y => eqb x y | None, None => true | _, _ => false end.
Definition links_of (E : env) (l : list site) : list (option str * option (bool * tid)) :=
  flat_map (fun s => match s with
                     | SMention t false => match type_name E t with Some n => [(Some n, nominal t)] | None => [] end
                     | _ => []
                     end) l.
Definition names_ok (E : env) (l : list site) : bool :=
  let ks := links_of E l in
  forallb (fun a => forallb (fun b =>
    implb (opt_eqb str_eqb (fst a) (fst b))
      (opt_eqb (fun x y => Bool.eqb (fst x) (fst y) && Nat.eqb (snd x) (snd y)) (snd a) (snd b))) ks) ks.
Lemma names_checked E roots l : (forall s, visited E roots s -> In s l) -> names_ok E l = true -> names_unambiguous E roots.
Proof.
  intros Hv Hn t1 t2 [H1 N1] [H2 N2] Heq. unfold names_ok in Hn. rewrite forallb_forall in Hn.
  assert (Hl : forall t, visited E roots (SMention t false) -> type_name E t <> None -> In (type_name E t, nominal t) (links_of E l)).
  { intros t Ht Hne. apply in_flat_map. exists (SMention t false). split; [now apply Hv|]. destruct (type_name E t); [now left|congruence]. }
  specialize (Hn _ (Hl _ H1 N1)). rewrite forallb_forall in Hn. specialize (Hn _ (Hl _ H2 N2)). cbn [fst snd] in Hn. rewrite Heq in Hn.
  assert (He : opt_eqb str_eqb (type_name E t2) (type_name E t2) = true).
  { destruct (type_name E t2); [now apply str_eqb_eq|reflexivity]. }
  rewrite He in Hn. cbn in Hn. destruct (nominal t1) as [[b1 i1]|], (nominal t2) as [[b2 i2]|]; try discriminate; try reflexivity.
  cbn in Hn. apply andb_prop in Hn as [Hb Hi]. apply Bool.eqb_prop in Hb. apply Nat.eqb_eq in Hi. now subst.
Qed.

(** ** The members of what is flattened *)
Section Shapes.
  Variable pe pp : str -> bool.
  Variable D : tid -> derive_input ty.
  Notation said := (said pe pp).

  (** types written as objects with no other members than [P], or as null *)
  Inductive members_shape (P : str -> Prop) : ty -> Prop :=
  | ma_wrap w t : w <> WTuple1 -> members_shape P t -> members_shape P (TWrap w t)
  | ma_option t : members_shape P t -> members_shape P (TOption t)
  | ma_newtype id f : di_data (D id) = DaStruct (FUnnamed [f]) -> members_shape P (fs_ty f) -> members_shape P (TNamed id)
  | ma_struct id fs : di_data (D id) = DaStruct (FNamed fs) -> ~ said (PContainer DkNamed) (di_attrs (D id)) STransparent ->
      (forall t, said (PContainer DkNamed) (di_attrs (D id)) (STag t) -> P t) ->
      (forall rule l, has_rule pe pp (PContainer DkNamed) (di_attrs (D id)) rule -> serialised_fields pe pp rule 0 fs l ->
         forall n f, In (n, f) l -> ~ said PField (fs_attrs f) SFlatten /\ P n) -> members_shape P (TNamed id).
  Lemma emits_members_among uni disc l ms n j : emits_fields pe pp uni disc D l ms ->
    (forall n f, In (n, f) l -> ~ AttrSpec.said pe pp PField (fs_attrs f) SFlatten) -> In (n, j) ms -> In n (map fst l).
  Proof.
    intros H Hn Hin. induction H as [|n' f l ms Hs H IH|n' f l j' ms Hs He H IH|n' f l j' ms' ms Hs He Hf H IH].
    - destruct Hin.
    - right. apply IH; [|exact Hin]. intros n0 f0 H0. apply (Hn n0 f0). now right.
    - destruct Hin as [[= -> _]|Hin]; [now left|right]. apply IH; [|exact Hin]. intros n0 f0 H0. apply (Hn n0 f0). now right.
    - destruct (Hn n' f); [now left|exact Hs].
  Qed.
  Lemma shape_among P t : members_shape P t -> members_among pe pp D P t.
  Proof.
    induction 1 as [w t Hw H IH|t H IH|id f Hd H IH|id fs Hd Hnt Htag Hm]; intros uni disc j ms k He Hf Hk.
    - inversion He; subst; [|congruence]. eauto.
    - inversion He; subst; [|eauto]. destruct Hf as [Hf|[_ ->] ]; [discriminate|destruct Hk].
    - inversion He; subst; try congruence.
      + match goal with H : di_data (D id) = DaStruct (FUnnamed ?fs), Hl : length ?fs <> 1 |- _ => rewrite Hd in H; injection H as <-; now destruct Hl end.
      + match goal with H : transparent_field _ _ _ _ |- _ => destruct H as (fs & kind & Hd' & _ & _ & Hin & _) end.
        rewrite Hd in Hd'. injection Hd' as <-. destruct Hin as [<-|[] ]. eauto.
      + match goal with H : di_data (D id) = DaStruct (FUnnamed _) |- _ => rewrite Hd in H; injection H as <- end. eauto.
      + match goal with H : enum_variant _ _ _ _ _ _ _ |- _ => destruct H as (? & ? & Hd' & _); congruence end.
      + match goal with H : enum_variant _ _ _ _ _ _ _ |- _ => destruct H as (? & ? & Hd' & _); congruence end.
      + match goal with H : enum_variant _ _ _ _ _ _ _ |- _ => destruct H as (? & ? & Hd' & _); congruence end.
      + match goal with H : enum_variant _ _ _ _ _ _ _ |- _ => destruct H as (? & ? & Hd' & _); congruence end.
      + match goal with H : enum_variant _ _ _ _ _ _ _ |- _ => destruct H as (? & ? & Hd' & _); congruence end.
      + match goal with H : enum_variant _ _ _ _ _ _ _ |- _ => destruct H as (? & ? & Hd' & _); congruence end.
      + match goal with H : enum_variant _ _ _ _ _ _ _ |- _ => destruct H as (? & ? & Hd' & _); congruence end.
      + match goal with H : enum_variant _ _ _ _ _ _ _ |- _ => destruct H as (? & ? & Hd' & _); congruence end.
    - assert (Hfields : forall rule l ms, has_rule pe pp (PContainer DkNamed) (di_attrs (D id)) rule -> serialised_fields pe pp rule 0 fs l ->
        emits_fields pe pp uni disc D l ms -> In k (keys ms) -> P k).
      { intros rule l ms0 Hr Hl He0 Hk0. unfold keys in Hk0. apply in_map_iff in Hk0 as ([k' j0] & Hkk & Hin). cbn in Hkk. subst k'.
        assert (In k (map fst l)) as Hin'. { eapply emits_members_among; eauto. intros n f Hnf. now apply (Hm _ _ Hr Hl n f). }
        apply in_map_iff in Hin' as ([k' f] & Hkk & Hin'). cbn in Hkk. subst k'. now apply (Hm _ _ Hr Hl k f). }
      inversion He; subst; try congruence;
        try (match goal with H : enum_variant _ _ _ _ _ _ _ |- _ => destruct H as (? & ? & Hd' & _); congruence end).
      + match goal with H : di_data (D id) = DaStruct (FNamed _) |- _ => rewrite Hd in H; injection H as <- end.
        destruct Hf as [ [= <-] |[Hf _] ]; [|discriminate]. eauto.
      + match goal with H : di_data (D id) = DaStruct (FNamed _) |- _ => rewrite Hd in H; injection H as <- end.
        destruct Hf as [ [= <-] |[Hf _] ]; [|discriminate]. destruct Hk as [Hk|Hk]; [cbn in Hk; subst k; auto|]. eauto.
      + match goal with H : transparent_field _ _ _ _ |- _ => destruct H as (fs' & kind & Hd' & -> & Ht & _) end.
        rewrite Hd in Hd'. injection Hd' as <-. now destruct Hnt.
  Qed.
End Shapes.
