(** Generated schemas have alternatives that exclude each other if those of the code do. *)
From Verif Require Import Attr Ast Derive DeriveSpec Schema SchemaSpec SchemaFacts Gen GenSpec GenFacts GenFacts2 GenFacts3 GenFacts4 GenFacts5
  SoundSpec FitsSpec SoundFacts StrictSpec StrictFacts.

Definition tkind (c : tcode) : kind :=
  match c with
  | TcConst (CdString _) => KString
  | TcConst (CdNumber _) => KNumber
  | TcConst (CdInteger _) => KInteger
  | TcConst CdBoolean => KBoolean
  | TcArray _ => KArray_
  | TcObject _ | TcDict _ => KObject
  end.

Section Code.
  Variable w : Prop.
  Variable E : env.
  (** all schemas of [t] are of one kind, and nullable only if *)
  Definition shaped (t : ty) (k : kind) (null : Prop) : Prop := forall cx m cx', schema_returns E t cx m cx' ->
    kind_of m = k /\ exists b, nullable_of m = Some b /\ (b = true -> null).
  Definition code_shape (c : rcode) (k : kind) (null : Prop) : Prop :=
    match c with
    | RcInline (McModel _ (DcSingle b t)) => k = tkind t /\ (b = true -> null)
    | RcMention t _ p => shaped t k null /\ (p_nullable p = Some true -> null)
    | _ => False
    end.
  (** all schemas of [t] are of objects with these properties at most, and require those *)
  Definition membered (t : ty) (names reqs : str -> Prop) (null : Prop) : Prop := forall cx m cx', schema_returns E t cx m cx' ->
    exists o b, object_of m = Some o /\ mo_additional o = None /\ (forall k, bm_get k (mo_properties o) <> None -> names k) /\
      (forall k, reqs k -> In k (mo_required o)) /\ nullable_of m = Some b /\ (b = true -> null).
  Definition code_members (c : rcode) (names reqs : str -> Prop) (null : Prop) : Prop :=
    match c with
    | RcInline (McModel _ (DcSingle b (TcObject stmts))) =>
        (forall k, In k (map (fun s => fst (fst s)) stmts) -> names k) /\ (forall k, reqs k -> exists c', In (k, c', true) stmts) /\ (b = true -> null)
    | RcMention t _ p => membered t names reqs null /\ (p_nullable p = Some true -> null)
    | _ => False
    end.
  Definition never_null (c : mcode) : Prop :=
    match c with
    | McSchemaWith t p => p_nullable p <> Some true /\ forall cx m cx', schema_returns E t cx m cx' -> nullable_of m = Some false
    | McModel _ (DcSingle b _) => b = false
    | _ => False
    end.
  Inductive codes_apart (c1 c2 : rcode) : Prop :=
  | co_kind k1 k2 n1 n2 : code_shape c1 k1 n1 -> code_shape c2 k2 n2 -> kinds_apart k1 k2 -> ~ (n1 /\ n2) -> codes_apart c1 c2
  | co_tag m1 m2 tag v1 v2 i1 i2 n1 n2 : c1 = RcTagged m1 tag v1 i1 n1 -> c2 = RcTagged m2 tag v2 i2 n2 -> v1 <> v2 ->
      tag_free E m1 tag -> tag_free E m2 tag -> never_null m1 -> never_null m2 -> codes_apart c1 c2
  | co_members p1 p2 q1 q2 n1 n2 k1 k2 : w -> code_members c1 p1 q1 n1 -> code_members c2 p2 q2 n2 -> q1 k1 -> ~ p2 k1 -> q2 k2 -> ~ p1 k2 ->
      ~ (n1 /\ n2) -> codes_apart c1 c2.

  Fixpoint excl_r (c : rcode) : Prop :=
    match c with
    | RcInline c' => excl_m c'
    | RcTagged c' _ _ _ _ => excl_m c'
    | _ => True
    end
  with excl_m (c : mcode) : Prop :=
    match c with
    | McSchemaWith _ _ => True
    | McModel _ d => excl_d d
    end
  with excl_d (c : dcode) : Prop :=
    match c with
    | DcOneOf l => ForallOrdPairs codes_apart l /\ fold_right (fun r P => excl_r r /\ P) True l
    | DcSingle _ t => excl_t t
    end
  with excl_t (c : tcode) : Prop :=
    match c with
    | TcConst _ => True
    | TcArray r => excl_r r
    | TcObject l => fold_right (fun s P => excl_r (snd (fst s)) /\ P) True l
    | TcDict r => excl_r r
    end.
  Definition excl_type (t : ty) : Prop :=
    match t with
    | TTuple ts => ForallOrdPairs (fun t1 t2 => codes_apart (RcMention t1 false params_default) (RcMention t2 false params_default)) ts
    | TNamed id => excl_m (td_body (E id))
    | _ => True
    end.
End Code.

Lemma exclusive_make w S m : alternatives_apart w S m -> (forall r, child r m -> exclusive_ref w S r) -> exclusive w S m.
Proof. intros H1 H2. constructor; [exact H1|]. intros m' Hc. exact (H2 _ Hc). Qed.
Lemma exclusive_apply w S p m : exclusive w S m -> exclusive w S (apply_params p m).
Proof.
  intros He. apply exclusive_make.
  - destruct He as [Ha _]. destruct m as [d [[n td]|l|l|l]]; cbn; intros d' l'; try discriminate. intros [= _ <-]. exact (Ha _ _ eq_refl).
  - intros r Hc. rewrite child_apply_params in Hc. eapply exclusive_child; eauto.
Qed.
Lemma kind_apply p m : kind_of (apply_params p m) = kind_of m.
Proof. destruct m as [d [[n [s|s|s| |r|o]]|l|l|l]]; reflexivity. Qed.
Lemma nullable_apply p m b : nullable_of m = Some b ->
  nullable_of (apply_params p m) = Some (match p_nullable p with Some b' => b' | None => b end).
Proof. destruct m as [d [[n td]|l|l|l]]; try discriminate. cbn. now intros [= ->]. Qed.
Lemma exclusive_merge w S m tag v id n : exclusive w S m -> exclusive w S (fst (try_merge m (tag_model tag v id n))).
Proof.
  intros He. apply exclusive_make.
  - destruct He as [Ha _]. destruct m as [d [[b [s|s|s| |r|[p1 a1 q1]]]|l|l|l]]; cbn [try_merge m_data tag_model mk_single];
      try (destruct (object_merge _ _)); cbn; intros d' l'; try discriminate. intros [= _ <-]. exact (Ha _ _ eq_refl).
  - intros r Hc. apply child_merge in Hc as [Hc|Hc]; [exact (exclusive_child _ _ _ _ He Hc)|].
    unfold tag_model, mk_single in Hc. apply child_object in Hc as [[k [[= _ <-]|[]]]|Hc]; [|discriminate].
    apply exclusive_make; [intros d l [=]|]. intros r Hc. inversion Hc.
Qed.
Lemma tag_carried m tag v id n : without_property tag m -> carries_tag tag v (Inline (fst (try_merge m (tag_model tag v id n)))).
Proof.
  intros (o & Ho & Hg). destruct m as [d [[b [s|s|s| |r|[p1 a1 q1]]]|l|l|l]]; try discriminate. cbn in Ho. injection Ho as <-. cbn in Hg.
  unfold tag_model, mk_single. cbn [try_merge m_data object_merge mo_properties bm_insert merge_props].
  assert (Hm : bm_mem tag p1 = false) by (unfold bm_mem; now rewrite Hg). rewrite Hm. cbn [merge_props fst mo_required].
  do 3 eexists. split; [reflexivity|]. split; [reflexivity|]. cbn [mo_properties mo_required]. split; [apply bm_get_insert_eq|].
  split; [repeat split|]. apply in_or_app. right. now left.
Qed.
Lemma nullable_merge m tag v id n : nullable_of (fst (try_merge m (tag_model tag v id n))) = nullable_of m.
Proof.
  destruct m as [d [[b [s|s|s| |r|[p1 a1 q1]]]|l|l|l]]; try reflexivity. cbn [try_merge m_data tag_model mk_single].
  destruct (object_merge _ _) as [o ok]. reflexivity.
Qed.
Lemma pairs_Forall2 {A B} (R : A -> A -> Prop) (R' : B -> B -> Prop) (P : A -> B -> Prop) l l' :
  (forall a1 a2 b1 b2, R a1 a2 -> P a1 b1 -> P a2 b2 -> R' b1 b2) -> Forall2 P l l' -> ForallOrdPairs R l -> ForallOrdPairs R' l'.
Proof.
  intros HR. induction 1 as [|a b l l' Hp Hf IH]; intros H; [constructor|]. inversion H as [|? ? Ha Hl]; subst. constructor; [|auto].
  clear - HR Hp Hf Ha. induction Hf as [|a' b' l l' Hp' Hf IH]; constructor; inversion Ha; subst; eauto.
Qed.

(** the members of an object, with more parameters *)
Lemma object_apply p m o : object_of m = Some o -> object_of (apply_params p m) = Some o.
Proof. destruct m as [d [[n [s|s|s| |r|o']]|l|l|l]]; try discriminate. now intros [= ->]. Qed.

Section Run.
  Variable w : Prop.
  Variables (E : env) (calls : list mention_call) (cx_end : components).
  Hypothesis Hun : names_unambiguous E (call_sites calls).
  Hypothesis Hret : mentions_return E calls cx_new cx_end.
  Notation roots := (call_sites calls).
  Notation S := (cx_schemas cx_end).
  Definition reachable (t : ty) : Prop := exists s, visited E roots s /\ site_ty s = t.
  Hypothesis Hexcl : forall t, reachable t -> excl_type w E t.

  Lemma mention_shape t i p cx r cx' k null : visited E roots (SMention t i) -> mention_returns E t i p cx r cx' ->
    shaped E t k null -> (p_nullable p = Some true -> null) ->
    exists m b, resolves S r m /\ kind_of m = k /\ nullable_of m = Some b /\ (b = true -> null).
  Proof.
    intros Hv Hm Hs Hp. rewrite mention_returns_iff in Hm. destruct (link_name E t i) as [n|] eqn:El.
    - destruct Hm as [-> _]. unfold link_name in El. destruct i; [discriminate|].
      assert (Hl : linked E roots t) by (split; [exact Hv|congruence]).
      destruct (links_lead_to_own_schema E _ _ _ _ Hun Hret Hl El) as (m & Hg & Hall).
      destruct (Hall cx) as [cx1 H1]. destruct (Hs _ _ _ H1) as (Hk & b & Hb & Hn). exists m, b. split; [right; eauto|auto].
    - destruct Hm as (m & Hm & ->). destruct (Hs _ _ _ Hm) as (Hk & b & Hb & Hn).
      exists (apply_params p m), (match p_nullable p with Some b' => b' | None => b end). split; [now left|]. rewrite kind_apply.
      split; [exact Hk|]. split; [now apply nullable_apply|]. destruct (p_nullable p) as [[|]|]; auto; discriminate.
  Qed.

  Lemma mention_members t i p cx r cx' names reqs null : visited E roots (SMention t i) -> mention_returns E t i p cx r cx' ->
    membered E t names reqs null -> (p_nullable p = Some true -> null) ->
    exists m o b, resolves S r m /\ object_of m = Some o /\ mo_additional o = None /\ (forall k, bm_get k (mo_properties o) <> None -> names k) /\
      (forall k, reqs k -> In k (mo_required o)) /\ nullable_of m = Some b /\ (b = true -> null).
  Proof.
    intros Hv Hm Hs Hp. rewrite mention_returns_iff in Hm. destruct (link_name E t i) as [n|] eqn:El.
    - destruct Hm as [-> _]. unfold link_name in El. destruct i; [discriminate|].
      assert (Hl : linked E roots t) by (split; [exact Hv|congruence]).
      destruct (links_lead_to_own_schema E _ _ _ _ Hun Hret Hl El) as (m & Hg & Hall).
      destruct (Hall cx) as [cx1 H1]. destruct (Hs _ _ _ H1) as (o & b & Ho & Hrest). exists m, o, b. split; [right; eauto|auto].
    - destruct Hm as (m & Hm & ->). destruct (Hs _ _ _ Hm) as (o & b & Ho & Ha & Hn & Hq & Hb & Hx).
      exists (apply_params p m), o, (match p_nullable p with Some b' => b' | None => b end). split; [now left|].
      split; [now apply object_apply|]. do 3 (split; [assumption|]). split; [now apply nullable_apply|].
      destruct (p_nullable p) as [[|]|]; auto; discriminate.
  Qed.

  Section Eval.
    Variable f : nat.
    Notation gs := (get_schema E f).
    Hypothesis gs_excl : forall t cx m cx', reachable t -> gs t cx = Ok (m, cx') -> exclusive w S m.
    Notation seen l := (forall s, In s l -> visited E roots s).

    Lemma mention_excl t i p cx r cx' : visited E roots (SMention t i) -> mention_schema E gs t i p cx = Ok (r, cx') -> exclusive_ref w S r.
    Proof.
      intros Hv H. rewrite mention_schema_eq in H. destruct (link_name E t i) as [n|].
      - destruct (bm_mem n (cx_schemas cx)); binds; exact I.
      - binds. apply exclusive_apply. eapply gs_excl; [|eassumption]. now exists (SMention t i).
    Qed.
    Lemma kind_eval c cx td cx' : eval_t E gs c cx = Ok (td, cx') -> forall d n, kind_of (Model d (Single (MType n td))) = tkind c.
    Proof.
      destruct c as [c|c|l|c].
      - rewrite et_const. intros H; binds. intros d n. destruct c; reflexivity.
      - rewrite et_array. intros H; binds. reflexivity.
      - rewrite et_object. intros H. apply bind_Ok in H as ([[pr rq] cx1] & H & H1). binds. reflexivity.
      - rewrite et_dict. intros H; binds. reflexivity.
    Qed.
    Lemma code_shape_eval c k null cx r cx' : seen (sites_r c) -> code_shape E c k null -> eval_r E gs c cx = Ok (r, cx') ->
      exists m b, resolves S r m /\ kind_of m = k /\ nullable_of m = Some b /\ (b = true -> null).
    Proof.
      intros Hs Hc H. destruct c as [|[t p|d [l|b t]]|t i p|c tag v id n]; try contradiction.
      - destruct Hc as [-> Hn]. rewrite er_inline in H. binds. rewrite em_model in *. binds. rewrite ed_single in *. binds.
        eexists _, b. split; [now left|]. split; [eapply kind_eval; eauto|]. split; [reflexivity|exact Hn].
      - destruct Hc as [Hc Hn]. rewrite er_mention in H. eapply (mention_shape t i p); eauto; [apply Hs; now left|exists f; exact H].
    Qed.
    Lemma eval_stmts_required (g : rcode -> components -> res (model_ref * components)) l : forall props req cx props' req' cx',
      eval_stmts g l props req cx = Ok (props', req', cx') -> forall k, In k req \/ (exists c, In (k, c, true) l) -> In k req'.
    Proof.
      induction l as [|[[n c] b] l IH]; intros props req cx props' req' cx' He k Hk.
      - cbn in He. injection He as <- <- <-. destruct Hk as [Hk|(c & [])]. exact Hk.
      - cbn in He. fold (eval_stmts g) in He. binds.
        match goal with H : eval_stmts g l _ _ _ = Ok _ |- _ => apply (IH _ _ _ _ _ _ H) end.
        destruct Hk as [Hk|(c' & [[= -> -> ->]|Hk])].
        + left. destruct b; [apply in_or_app; now left|exact Hk].
        + left. apply in_or_app. right. now left.
        + right. eauto.
    Qed.
    Lemma code_members_eval c names reqs null cx r cx' : seen (sites_r c) -> code_members E c names reqs null -> eval_r E gs c cx = Ok (r, cx') ->
      exists m o b, resolves S r m /\ object_of m = Some o /\ mo_additional o = None /\ (forall k, bm_get k (mo_properties o) <> None -> names k) /\
        (forall k, reqs k -> In k (mo_required o)) /\ nullable_of m = Some b /\ (b = true -> null).
    Proof.
      intros Hs Hc H. destruct c as [|[t p|d [l|b [c|c|stmts|c]]]|t i p|c tag v id n]; try contradiction.
      - destruct Hc as (Hn & Hq & Hb). rewrite er_inline in H. binds. rewrite em_model in *. binds. rewrite ed_single in *. binds.
        match goal with H : eval_t _ _ _ _ = Ok _ |- _ => rewrite et_object in H; apply bind_Ok in H as ([[pr rq] cx1] & H & H1) end. binds.
        match goal with H : eval_stmts _ _ _ _ _ = Ok _ |- _ => destruct (eval_stmts_src _ _ _ _ _ _ _ _ H) as [H1 _];
          pose proof (eval_stmts_required _ _ _ _ _ _ _ _ H) as H2 end.
        eexists _, (MObject pr None rq), b. split; [now left|]. split; [reflexivity|]. split; [reflexivity|]. cbn [mo_properties mo_required]. split.
        + intros k Hk. apply Hn. destruct (bm_get k pr) as [r0|] eqn:Eg; [|now destruct Hk]. destruct (H1 _ _ Eg) as [Hx|(c & b' & c1 & c2 & Hin & _)]; [discriminate|].
          apply in_map_iff. exists (k, c, b'). now split.
        + split; [|split; [reflexivity|exact Hb]]. intros k Hk. apply H2. right. auto.
      - destruct Hc as [Hc Hn]. rewrite er_mention in H. eapply (mention_members t i p); eauto; [apply Hs; now left|exists f; exact H].
    Qed.
    Lemma tag_free_eval c tag cx m cx' : tag_free E c tag -> eval_m E gs c cx = Ok (m, cx') -> without_property tag m.
    Proof.
      intros Ht H. destruct c as [t p|d [l|b [c|c|l|c]]]; try contradiction; cbn in Ht.
      - rewrite em_with in H. binds. match goal with H : gs _ _ = Ok _ |- _ => destruct (Ht _ _ _ (ex_intro _ f H)) as (o & Ho & Hg) end.
        exists o. split; [|exact Hg]. match goal with |- object_of (apply_params p ?m) = _ => destruct m as [d' [[n' [s|s|s| |r|o']]|l|l|l]] end; try discriminate. exact Ho.
      - rewrite em_model in H. binds. rewrite ed_single in *. binds.
        match goal with H : eval_t _ _ _ _ = Ok _ |- _ => rewrite et_object in H; apply bind_Ok in H as ([[pr rq] cx1] & H & H1) end. binds.
        eexists. split; [reflexivity|]. cbn [mo_properties].
        match goal with H : eval_stmts _ _ _ _ _ = Ok _ |- _ => destruct (eval_stmts_src _ _ _ _ _ _ _ _ H) as [H1 _] end.
        destruct (bm_get tag pr) as [r|] eqn:Eg; [|reflexivity]. exfalso. destruct (H1 _ _ Eg) as [H2|(c & b' & c1 & c2 & Hin & _)]; [discriminate|].
        apply Ht. apply in_map_iff. exists (tag, c, b'). now split.
    Qed.
    Lemma never_null_eval c cx m cx' : never_null E c -> eval_m E gs c cx = Ok (m, cx') -> nullable_of m = Some false.
    Proof.
      intros Ht H. destruct c as [t p|d [l|b t]]; try contradiction; cbn in Ht.
      - destruct Ht as [Hp Ht]. rewrite em_with in H. binds. match goal with H : gs _ _ = Ok _ |- _ => pose proof (Ht _ _ _ (ex_intro _ f H)) as Hb end.
        rewrite (nullable_apply _ _ _ Hb). destruct (p_nullable p) as [[|]|]; congruence.
      - subst b. rewrite em_model in H. binds. rewrite ed_single in *. binds. reflexivity.
    Qed.
    Definition evaluates (c : rcode) (r : model_ref) : Prop := exists cx cx', eval_r E gs c cx = Ok (r, cx') /\ seen (sites_r c).
    Lemma codes_apart_eval c1 c2 r1 r2 : codes_apart w E c1 c2 -> evaluates c1 r1 -> evaluates c2 r2 -> apart w S r1 r2.
    Proof.
      intros [k1 k2 n1 n2 H1 H2 Hk Hn|m1 m2 tag v1 v2 i1 i2 n1 n2 -> -> Hv Hf1 Hf2 Hn1 Hn2|p1 p2 q1 q2 n1 n2 k1 k2 Hw H1 H2 Hq1 Hp2 Hq2 Hp1 Hn] (cx1 & cx1' & He1 & Hs1) (cx2 & cx2' & He2 & Hs2).
      - destruct (code_shape_eval _ _ _ _ _ _ Hs1 H1 He1) as (a1 & b1 & Hr1 & <- & Hb1 & Hx1).
        destruct (code_shape_eval _ _ _ _ _ _ Hs2 H2 He2) as (a2 & b2 & Hr2 & <- & Hb2 & Hx2).
        eapply ap_kind; eauto. destruct b1, b2; auto. destruct Hn; auto.
      - rewrite er_tagged in He1, He2. binds.
        repeat match goal with H : eval_m _ _ _ _ = Ok _ |- _ => 
          first [pose proof (tag_free_eval _ _ _ _ _ Hf1 H); pose proof (never_null_eval _ _ _ _ Hn1 H)|
                 pose proof (tag_free_eval _ _ _ _ _ Hf2 H); pose proof (never_null_eval _ _ _ _ Hn2 H)]; clear H end.
        eapply ap_tag with (v1 := v1) (v2 := v2) (tag := tag); [reflexivity|reflexivity|now apply tag_carried|now apply tag_carried|exact Hv| |];
          rewrite nullable_merge; assumption.
      - destruct (code_members_eval _ _ _ _ _ _ _ Hs1 H1 He1) as (a1 & o1 & b1 & Hr1 & Ho1 & Ha1 & Hx1 & Hy1 & Hb1 & Hz1).
        destruct (code_members_eval _ _ _ _ _ _ _ Hs2 H2 He2) as (a2 & o2 & b2 & Hr2 & Ho2 & Ha2 & Hx2 & Hy2 & Hb2 & Hz2).
        eapply (ap_members w S r1 r2 a1 a2 b1 b2 o1 o2 k1 k2); eauto.
        + destruct (bm_get k1 (mo_properties o2)) eqn:Eg; [|reflexivity]. destruct Hp2. apply Hx2. now rewrite Eg.
        + destruct (bm_get k2 (mo_properties o1)) eqn:Eg; [|reflexivity]. destruct Hp1. apply Hx1. now rewrite Eg.
        + destruct b1, b2; auto. destruct Hn; auto.
    Qed.
    Lemma vec_evaluates l : seen (flat_map sites_r l) -> forall cx rs cx', eval_vec (eval_r E gs) l cx = Ok (rs, cx') -> Forall2 evaluates l rs.
    Proof.
      induction l as [|c l IH]; intros Hs cx rs cx' H; cbn in H; fold (@eval_vec rcode model_ref) in H; binds; constructor.
      - eexists _, _. split; [eassumption|]. intros s Hi. apply Hs. cbn. apply in_or_app. now left.
      - eapply IH; [|eassumption]. intros s Hi. apply Hs. cbn. apply in_or_app. now right.
    Qed.
    Lemma eval_excl :
      (forall c cx r cx', excl_r w E c -> seen (sites_r c) -> eval_r E gs c cx = Ok (r, cx') -> exclusive_ref w S r) /\
      (forall c cx m cx', excl_m w E c -> seen (sites_m c) -> eval_m E gs c cx = Ok (m, cx') -> exclusive w S m) /\
      (forall c cx d cx', excl_d w E c -> seen (sites_d c) -> eval_d E gs c cx = Ok (d, cx') -> forall o, exclusive w S (Model o d)) /\
      (forall c cx td cx', excl_t w E c -> seen (sites_t c) -> eval_t E gs c cx = Ok (td, cx') -> forall o n, exclusive w S (Model o (Single (MType n td)))).
    Proof.
      apply code_ind.
      - intros cx r cx' _ _ H. rewrite er_any in H. binds. exact I.
      - intros c IH cx r cx' Hn Hs H. rewrite er_inline in H. binds. eapply IH; eauto.
      - intros t i p cx r cx' Hn Hs H. rewrite er_mention in H. eapply (mention_excl t i p); eauto. apply Hs. now left.
      - intros c tag v id n IH cx r cx' Hn Hs H. rewrite er_tagged in H. binds. apply exclusive_merge. eapply IH; eauto.
      - intros t p cx m cx' Hn Hs H. rewrite em_with in H. binds. apply exclusive_apply. eapply gs_excl; [|eassumption]. exists (SCall t). split; [apply Hs; now left|reflexivity].
      - intros d c IH cx m cx' Hn Hs H. rewrite em_model in H. binds. eapply IH; eauto.
      - intros l Hl cx r cx' [Hn Hn'] Hs H o. rewrite ed_oneof in H. binds.
        match goal with H : eval_vec _ _ _ = Ok _ |- _ => rename H into Hv end. pose proof (vec_evaluates l Hs _ _ _ Hv) as Hf.
        apply exclusive_make.
        + intros d0 l9 [= _ <-]. eapply pairs_Forall2; [|exact Hf|exact Hn]. intros. eapply codes_apart_eval; eauto.
        + intros r Hc. inversion Hc; subst. match goal with H : In r _ |- _ => rename H into Hr end.
          clear - Hl Hn' Hs Hf Hr. induction Hf as [|c r0 l rs He Hf IH]; [destruct Hr|]. inversion Hl as [|? ? Hc0 Hl']; subst. destruct Hn' as [Hn1 Hn2].
          destruct Hr as [<-|Hr].
          * destruct He as (c1 & c2 & He & Hs'). eapply Hc0; eauto.
          * apply IH; auto. intros s Hi. apply Hs. cbn. apply in_or_app. now right.
      - intros n c IH cx r cx' Hn Hs H o. rewrite ed_single in H. binds. eapply IH; eauto.
      - intros c cx r cx' Hn _ H o n. rewrite et_const in H. binds. apply exclusive_make; [intros ? ? [=]|]. intros r Hc. destruct c; inversion Hc.
      - intros c IH cx r cx' Hn Hs H o n. rewrite et_array in H. binds. apply exclusive_make; [intros ? ? [=]|].
        intros r Hc. inversion Hc; subst. eapply IH; eauto.
      - intros l Hl cx td cx' Hn' Hs H o n. rewrite et_object in H. apply bind_Ok in H as ([[pr rq] cx1] & H & H1). binds.
        assert (Hg : forall pr0 rq0 cx, (forall k r, In (k, r) pr0 -> exclusive_ref w S r) ->
                  forall pr rq cx', eval_stmts (eval_r E gs) l pr0 rq0 cx = Ok ((pr, rq), cx') -> forall k r, In (k, r) pr -> exclusive_ref w S r).
        { clear - Hl Hn' Hs. induction Hl as [|[[k c] b] l Hc Hl IH]; intros pr0 rq0 cx H0 pr rq cx'; cbn [eval_stmts];
            intros H; binds; [exact H0|]. cbn [fst snd] in *. cbn [fold_right] in Hn'. destruct Hn' as [Hn1 Hn2].
          assert (Hs1 : seen (sites_r c)) by (intros s Hi; apply Hs; cbn; apply in_or_app; now left).
          match goal with H : eval_r _ _ _ _ = Ok _ |- _ => pose proof (Hc _ _ _ Hn1 Hs1 H) as Ha end.
          eapply IH; [exact Hn2|intros s Hi; apply Hs; cbn; apply in_or_app; now right| |eassumption].
          intros k0 r0 Hin. apply bm_insert_In' in Hin as [->|Hin]; eauto. }
        apply exclusive_make; [intros ? ? [=]|]. intros r Hc. apply child_object in Hc as [[k Hk]|Hk]; [|discriminate].
        eapply Hg; [|exact H|exact Hk]. intros ? ? [].
      - intros c IH cx r cx' Hn Hs H o n. rewrite et_dict in H. binds. apply exclusive_make; [intros ? ? [=]|].
        intros r Hc. apply child_object in Hc as [[k []]|Hk]. injection Hk as <-. eapply IH; eauto.
    Qed.
    Lemma step_excl t cx m cx' : reachable t -> schema_step E gs t cx = Ok (m, cx') -> exclusive w S m.
    Proof.
      intros (s0 & Hv & <-) H. assert (Hs : seen (sites_of E (site_ty s0))) by (intros s Hi; eapply vis_step; eauto).
      assert (Ht : excl_type w E (site_ty s0)) by (apply Hexcl; now exists s0).
      assert (Hcall : forall t', In (SCall t') (sites_of E (site_ty s0)) -> reachable t') by (intros t' Hi; exists (SCall t'); split; auto).
      destruct (site_ty s0) as [p|wr t|t|ts|k t|k t|id]; cbn [schema_step sites_of] in *.
      - binds. apply exclusive_make; [intros ? ? Hx; destruct p; discriminate|]. intros r Hc. destruct p; inversion Hc.
      - eapply gs_excl; [|exact H]. apply Hcall. now left.
      - unfold get_schema_with_params in H. binds. apply exclusive_apply. eapply gs_excl; [|eassumption]. apply Hcall. now left.
      - binds. match goal with H : eval_vec _ _ _ = Ok (?rs, _) |- _ => rename H into Hvec; rename rs into a end.
        assert (Hf : Forall2 (fun t r => evaluates (RcMention t false params_default) r) ts a).
        { clear - Hvec Hs. revert cx a Hvec. induction ts as [|t ts IH]; intros cx a H; cbn in H; fold (@eval_vec ty model_ref) in H; binds; constructor.
          - eexists _, _. rewrite er_mention. split; [eassumption|]. intros s [<-|[]]. apply Hs. now left.
          - eapply IH; [|eassumption]. intros s Hi. apply Hs. now right. }
        apply exclusive_make; [intros ? ? [=]|]. intros r Hc. unfold mk_single in Hc. inversion Hc; subst.
        apply exclusive_make.
        + intros d l0 [= _ <-]. eapply pairs_Forall2; [|exact Hf|exact Ht]. intros t1 t2 r1 r2 Ha H1 H2. exact (codes_apart_eval _ _ _ _ Ha H1 H2).
        + intros r Hc'. inversion Hc'; subst. match goal with H : In r _ |- _ => rename H into Hr end.
          assert (Hx : exists t, evaluates (RcMention t false params_default) r).
          { clear - Hf Hr. induction Hf as [|t r0 l rs He Hf IH]; [destruct Hr|]. destruct Hr as [<-|Hr]; [now exists t|auto]. }
          destruct Hx as (t & c1 & c2 & He & Hss). rewrite er_mention in He. eapply (mention_excl t false params_default); eauto. apply Hss. now left.
      - binds. apply exclusive_make; [intros ? ? [=]|]. intros r Hc. unfold mk_single in Hc. inversion Hc; subst.
        eapply (mention_excl t false params_default); eauto. apply Hs. now left.
      - binds. apply exclusive_make; [intros ? ? [=]|]. intros r Hc. unfold mk_single in Hc.
        apply child_object in Hc as [[k' []]|Hk]. injection Hk as <-. eapply (mention_excl t false params_default); eauto. apply Hs. now left.
      - destruct eval_excl as (_ & Hm & _). eapply Hm; eauto.
    Qed.
  End Eval.
  Lemma schema_exclusive t cx m cx' : reachable t -> schema_returns E t cx m cx' -> exclusive w S m.
  Proof.
    intros Ht [f H]. revert t cx m cx' Ht H. induction f as [|f IH]; intros t cx m cx' Ht H; [discriminate|]. eapply step_excl; eauto.
  Qed.
  Theorem end_exclusive n m : bm_get n S = Some m -> exclusive w S m.
  Proof.
    intros Hg. destruct (registered_has_source E _ _ _ _ Hret Hg) as (t & c0 & c1 & [Hv _] & _ & Hs).
    eapply schema_exclusive; [|exact Hs]. now exists (SMention t false).
  Qed.
  Theorem mention_exclusive c cx0 r cx1 : In c calls -> mention_returns E (mc_ty c) (mc_inline c) (mc_params c) cx0 r cx1 -> exclusive_ref w S r.
  Proof.
    intros Hc [f Hm].
    eapply (mention_excl f); [intros t cx m cx' Ht H; eapply schema_exclusive; [exact Ht|exists f; exact H]| |exact Hm].
    apply vis_root. unfold call_sites. apply in_map_iff. now exists c.
  Qed.
End Run.

Section Reads.
  Variables (E : env) (calls : list mention_call) (cx_end : components).
  Hypothesis Hun : names_unambiguous E (call_sites calls).
  Hypothesis Hret : mentions_return E calls cx_new cx_end.
  Notation S := (cx_schemas cx_end).
  Theorem mention_reads c cx0 r cx1 j : (forall t, reachable E calls t -> excl_type False E t) ->
    In c calls -> mention_returns E (mc_ty c) (mc_inline c) (mc_params c) cx0 r cx1 -> (valid S r j <-> accepts S r j).
  Proof.
    intros Hx Hc Hm. apply readings_agree; [exact (end_exclusive _ _ _ _ Hun Hret Hx)|]. eapply mention_exclusive; eauto.
  Qed.
  Theorem mention_accepted c cx0 r cx1 j : (forall t, reachable E calls t -> excl_type True E t) ->
    In c calls -> mention_returns E (mc_ty c) (mc_inline c) (mc_params c) cx0 r cx1 -> fits S r j -> accepts S r j.
  Proof.
    intros Hx Hc Hm. apply fitting_accepted; [exact (end_exclusive _ _ _ _ Hun Hret Hx)|]. eapply mention_exclusive; eauto.
  Qed.
End Reads.
