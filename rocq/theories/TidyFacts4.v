(** A generated schema is accepted by OpenAPI only if the generated code is neat, and the schemas used in it are accepted. *)
From Verif Require Import Schema SchemaSpec SchemaFacts Gen GenSpec GenFacts GenFacts2 GenFacts3 GenFacts4 GenFacts5 TidySpec TidyFacts TidyFacts2.

(** code whose parameters give no values, and whose objects do not drop a property of one name for another unseen *)
Fixpoint plain_r (c : rcode) : Prop :=
  match c with
  | RcAny => True
  | RcInline c' => plain_m c'
  | RcMention _ _ p => p_variants p = None
  | RcTagged c' _ _ _ _ => plain_m c'
  end
with plain_m (c : mcode) : Prop :=
  match c with
  | McSchemaWith _ p => p_variants p = None
  | McModel _ d => plain_d d
  end
with plain_d (c : dcode) : Prop :=
  match c with
  | DcOneOf l => fold_right (fun r P => plain_r r /\ P) True l
  | DcSingle _ t => plain_t t
  end
with plain_t (c : tcode) : Prop :=
  match c with
  | TcConst _ => True
  | TcArray r => plain_r r
  | TcObject l => (NoDup (map (fun s => fst (fst s)) l) \/ ~ NoDup (map (fun s => fst (fst s)) (filter snd l))) /\
      fold_right (fun s P => plain_r (snd (fst s)) /\ P) True l
  | TcDict r => plain_r r
  end.

Lemma tidy_toplevel_of m : tidy m -> tidy_toplevel m. Proof. now intros [H _]. Qed.
Lemma tidy_unapply p m : p_variants p = None -> tidy (apply_params p m) -> tidy m.
Proof.
  intros Hp Ht. apply tidy_make.
  - apply tidy_toplevel_of in Ht. destruct m as [d [[n [s|s|s| |r|[p1 a1 q1]]]|l|l|l]]; cbn in *; auto. now rewrite Hp in Ht.
  - intros r Hc. apply (tidy_child _ r Ht). now rewrite child_apply_params.
Qed.
Lemma NoDup_front {A} (a b : list A) : NoDup (a ++ b) -> NoDup a.
Proof. induction a as [|x a IH]; cbn; intros H; constructor; inversion H; subst; [intros Hi; now apply H2, in_or_app; left|auto]. Qed.
Lemma bm_insert_keep {V} (k : str) (v : V) m k0 v0 : bm_mem k m = false -> In (k0, v0) m -> In (k0, v0) (bm_insert k v m).
Proof.
  intros Hm Hi. assert (Hk : ~ In k (bm_keys m)) by now apply bm_mem_false. clear Hm. induction m as [|[k1 v1] m IH]; [destruct Hi|].
  cbn. destruct (kcmp k k1) eqn:Ec; [apply kcmp_eq in Ec; destruct Hk; now left|now right|].
  destruct Hi as [Hi|Hi]; [now left|right]. apply IH; [exact Hi|]. intros Hx. apply Hk. now right.
Qed.
Lemma tidy_unmerge m tag v id n : tidy (fst (try_merge m (tag_model tag v id n))) -> tidy m.
Proof.
  intros Ht. destruct m as [d [[b [s|s|s| |r|[p1 a1 q1]]]|l|l|l]]; try exact Ht.
  unfold tag_model, mk_single in Ht. cbn [try_merge m_data object_merge mo_properties bm_insert merge_props] in Ht.
  destruct (bm_mem tag p1) eqn:Em; [exact Ht|]. cbn [merge_props fst mo_required] in Ht. apply tidy_make.
  - apply tidy_toplevel_of in Ht. cbn in *. eapply NoDup_front; exact Ht.
  - intros r Hc. apply (tidy_child _ r Ht). rewrite child_object in *. destruct Hc as [[k Hk]|Hc]; [|now right]. left. exists k.
    now apply bm_insert_keep.
Qed.

Section Conv.
  Variable E : env.
  (** the reference a site makes is a link, or its type's schema is accepted *)
  Definition clean (s : site) : Prop :=
    (exists t, s = SMention t false /\ type_name E t <> None) \/
    exists cx m cx', schema_returns E (site_ty s) cx m cx' /\ tidy m.
  Section Eval.
    Variable f : nat.
    Notation gs := (get_schema E f).
    Lemma clean_call t cx m cx' : gs t cx = Ok (m, cx') -> tidy m -> clean (SCall t).
    Proof. intros H Hm. right. exists cx, m, cx'. split; [now exists f|exact Hm]. Qed.
    Lemma clean_mention t i p cx r cx' : p_variants p = None -> mention_schema E gs t i p cx = Ok (r, cx') -> tidy_ref r -> clean (SMention t i).
    Proof.
      intros Hp H Hr. rewrite mention_schema_eq in H. destruct (link_name E t i) as [n|] eqn:El.
      - left. exists t. unfold link_name in El. destruct i; [discriminate|]. split; [reflexivity|]. congruence.
      - binds. cbn in Hr. apply tidy_unapply in Hr; [|exact Hp]. right. do 3 eexists. split; [exists f; eassumption|exact Hr].
    Qed.
    Lemma eval_vec_each {A B} (g : A -> components -> res (B * components)) l : forall cx rs cx', eval_vec g l cx = Ok (rs, cx') ->
      (l = [] -> rs = []) /\ forall a, In a l -> exists cx1 r cx2, g a cx1 = Ok (r, cx2) /\ In r rs.
    Proof.
      induction l as [|a l IH]; intros cx rs cx' H; cbn in H; binds; [split; [auto|intros ? []]|]. split; [discriminate|].
      intros a' [<-|Hi]; [do 3 eexists; split; [eassumption|now left]|]. edestruct IH as [_ IH']; [eassumption|].
      destruct (IH' _ Hi) as (c1 & r1 & c2 & H1 & H2). exists c1, r1, c2. split; [exact H1|now right].
    Qed.
    Lemma eval_stmts_each (g : rcode -> components -> res (model_ref * components)) l : forall pr0 rq0 cx pr rq cx',
      eval_stmts g l pr0 rq0 cx = Ok ((pr, rq), cx') ->
      rq = rq0 ++ map (fun s => fst (fst s)) (filter snd l) /\
      (forall k, ~ In k (map (fun s => fst (fst s)) l) -> bm_get k pr = bm_get k pr0) /\
      (NoDup (map (fun s => fst (fst s)) l) -> forall s, In s l -> exists cx1 r cx2, g (snd (fst s)) cx1 = Ok (r, cx2) /\ bm_get (fst (fst s)) pr = Some r).
    Proof.
      induction l as [|[[k c] b] l IH]; intros pr0 rq0 cx pr rq cx'; cbn [eval_stmts]; intros H; binds.
      - split; [cbn; now rewrite app_nil_r|]. split; [auto|intros _ s []].
      - edestruct IH as (H1 & H2 & H3); [eassumption|]. split; [|split].
        + rewrite H1. destruct b; cbn; [now rewrite <- app_assoc|reflexivity].
        + cbn. intros k' Hk. rewrite H2 by tauto. rewrite bm_get_insert_neq; [reflexivity|]. intros ->. apply Hk. now left.
        + cbn. intros Hn. inversion Hn as [|? ? Hnk Hn']; subst. intros s [<-|Hs]; [|now apply H3]. cbn. do 3 eexists. split; [eassumption|].
          rewrite H2 by assumption. apply bm_get_insert_eq.
    Qed.
    Lemma eval_conv :
      (forall c cx r cx', plain_r c -> eval_r E gs c cx = Ok (r, cx') -> tidy_ref r -> neat_r c /\ forall s, In s (sites_r c) -> clean s) /\
      (forall c cx m cx', plain_m c -> eval_m E gs c cx = Ok (m, cx') -> tidy m -> neat_m c /\ forall s, In s (sites_m c) -> clean s) /\
      (forall c cx d cx', plain_d c -> eval_d E gs c cx = Ok (d, cx') -> forall o, tidy (Model o d) -> neat_d c /\ forall s, In s (sites_d c) -> clean s) /\
      (forall c cx td cx', plain_t c -> eval_t E gs c cx = Ok (td, cx') -> forall o n, tidy (Model o (Single (MType n td))) ->
         neat_t c /\ forall s, In s (sites_t c) -> clean s).
    Proof.
      apply code_ind.
      - intros cx r cx' _ _ _. split; [exact I|intros s []].
      - intros c IH cx r cx' Hp H Ht. rewrite er_inline in H. binds. eapply IH; eauto.
      - intros t i p cx r cx' Hp H Ht. rewrite er_mention in H. cbn in Hp. split; [cbn; congruence|].
        intros s [<-|[]]. eapply clean_mention; eauto.
      - intros c tag v id n IH cx r cx' Hp H Ht. rewrite er_tagged in H. binds. cbn in Ht. apply tidy_unmerge in Ht. eapply IH; eauto.
      - intros t p cx m cx' Hp H Ht. rewrite em_with in H. cbn in Hp. binds. apply tidy_unapply in Ht; [|exact Hp]. split; [cbn; congruence|].
        intros s [<-|[]]. eapply clean_call; eauto.
      - intros d c IH cx m cx' Hp H Ht. rewrite em_model in H. binds. eapply IH; eauto.
      - intros l Hl cx d cx' Hp H o Ht. rewrite ed_oneof in H. binds. cbn [plain_d] in Hp.
        match goal with H : eval_vec _ _ _ = Ok _ |- _ => apply eval_vec_each in H as [H1 H2] end.
        assert (Hall : forall c, In c l -> neat_r c /\ forall s, In s (sites_r c) -> clean s).
        { intros c Hc. destruct (H2 c Hc) as (c1 & r & c2 & Hr & Hi). rewrite Forall_forall in Hl.
          eapply (Hl c Hc); [|exact Hr|apply (tidy_child _ _ Ht); now constructor].
          clear -Hp Hc. induction l as [|x l IH]; [destruct Hc|]. destruct Hp as [Hx Hp]. destruct Hc as [->|Hc]; auto. }
        split.
        + split; [|apply all_neat; intros c Hc; now apply Hall]. intros ->. apply tidy_toplevel_of in Ht. now apply Ht, H1.
        + intros s Hs. cbn in Hs. apply in_flat_map in Hs as (c & Hc & Hs). now apply (Hall c).
      - intros n c IH cx d cx' Hp H o Ht. rewrite ed_single in H. binds. eapply IH; eauto.
      - intros c cx td cx' _ H o n Ht. rewrite et_const in H. binds. split; [|intros s []]. apply tidy_toplevel_of in Ht. destruct c; cbn in *; auto.
      - intros c IH cx td cx' Hp H o n Ht. rewrite et_array in H. binds. eapply IH; eauto. apply (tidy_child _ _ Ht). constructor.
      - intros l Hl cx td cx' [Hd Hp] H o n Ht. rewrite et_object in H. apply bind_Ok in H as ([[pr rq] cx1] & H & H1). binds.
        apply eval_stmts_each in H as (Hq & _ & Hg). cbn in Hq. pose proof (tidy_toplevel_of _ Ht) as Hn. cbn in Hn. rewrite Hq in Hn.
        destruct Hd as [Hd|Hd]; [|contradiction]. specialize (Hg Hd).
        assert (Hall : forall s0, In s0 l -> neat_r (snd (fst s0)) /\ forall s, In s (sites_r (snd (fst s0))) -> clean s).
        { intros s0 Hs0. destruct (Hg s0 Hs0) as (c1 & r & c2 & Hr & Hi). rewrite Forall_forall in Hl.
          eapply (Hl s0 Hs0); [|exact Hr|apply (tidy_child _ _ Ht); apply child_object; left; exists (fst (fst s0)); now apply bm_get_In].
          clear -Hp Hs0. induction l as [|x l IH]; [destruct Hs0|]. destruct Hp as [Hx Hp]. destruct Hs0 as [->|Hs0]; auto. }
        split; [split; [exact Hn|apply all_neat_stmts; intros s Hs; now apply Hall]|].
        intros s Hs. cbn in Hs. apply in_flat_map in Hs as (s0 & Hs0 & Hs). now apply (Hall s0).
      - intros c IH cx td cx' Hp H o n Ht. rewrite et_dict in H. binds. eapply IH; eauto. apply (tidy_child _ _ Ht). constructor.
    Qed.
  End Eval.
  (** a type's own code is plain *)
  Definition plain_type (t : ty) : Prop := match t with TNamed id => plain_m (td_body (E id)) | _ => True end.
  Lemma step_conv t cx m cx' : plain_type t -> schema_returns E t cx m cx' -> tidy m -> neat_own E t /\ forall s, In s (sites_of E t) -> clean s.
  Proof.
    intros Hp [f H] Ht. destruct f as [|f]; [discriminate|]. cbn [get_schema] in H.
    destruct t as [p|w t|t|ts|k t|k t|id]; cbn [schema_step sites_of neat_own plain_type] in *.
    - split; [exact I|intros s []].
    - split; [exact I|]. intros s [<-|[]]. eapply clean_call; eauto.
    - split; [exact I|]. unfold get_schema_with_params in H. binds. intros s [<-|[]]. apply tidy_unapply in Ht; [|reflexivity]. eapply clean_call; eauto.
    - binds. match goal with H : eval_vec _ _ _ = Ok _ |- _ => apply eval_vec_each in H as [H1 H2] end.
      assert (Hin : tidy (Model None (OneOf l))) by (apply (tidy_child _ (Inline _) Ht); constructor).
      split; [intros ->; apply tidy_toplevel_of in Hin; now apply Hin, H1|].
      intros s Hs. apply in_map_iff in Hs as (t & <- & Hs). destruct (H2 t Hs) as (c1 & r & c2 & Hr & Hi).
      eapply clean_mention; [|exact Hr|]; [reflexivity|]. apply (tidy_child _ _ Hin). now constructor.
    - split; [exact I|]. binds. intros s [<-|[]]. eapply clean_mention; [|eassumption|]; [reflexivity|]. apply (tidy_child _ _ Ht). constructor.
    - split; [exact I|]. binds. intros s [<-|[]]. eapply clean_mention; [|eassumption|]; [reflexivity|]. apply (tidy_child _ _ Ht). constructor.
    - destruct (eval_conv f) as (_ & Hm & _). eapply Hm; eauto.
  Qed.

  (** everything a history of mentions visits *)
  Section History.
    Variables (calls : list mention_call) (cx : components).
    Hypothesis Hu : names_unambiguous E (call_sites calls).
    Hypothesis Hm : mentions_return E calls cx_new cx.
    Hypothesis Hv : forall c, In c calls -> p_variants (mc_params c) = None.
    Hypothesis Hp : forall s, visited E (call_sites calls) s -> plain_type (site_ty s).
    Hypothesis Hx : forall n m, In (n, m) (cx_schemas cx) -> component_name n /\ tidy m.
    Hypothesis Hr : forall c cx0 r cx1, In c calls -> mention_returns E (mc_ty c) (mc_inline c) (mc_params c) cx0 r cx1 -> tidy_ref r.
    Lemma call_returns l : forall f cx0 cx1, mention_all E f l cx0 = Ok cx1 -> forall c, In c l ->
      exists cx2 r cx3, mention E f (mc_ty c) (mc_inline c) (mc_params c) cx2 = Ok (r, cx3).
    Proof.
      induction l as [|c0 l IH]; intros f cx0 cx1 H c Hc; [destruct Hc|]. cbn in H. binds. destruct Hc as [<-|Hc]; [eauto|eapply IH; eauto].
    Qed.
    Lemma linked_clean t : linked E (call_sites calls) t -> exists cx0 m cx1, schema_returns E t cx0 m cx1 /\ tidy m.
    Proof.
      intros Hl. pose proof Hl as [_ Hn]. destruct (type_name E t) as [n|] eqn:En; [|congruence].
      destruct (links_lead_to_own_schema E calls cx t n Hu Hm Hl En) as (m & Hg & Hs). destruct (Hs cx_new) as [cx1 H1].
      exists cx_new, m, cx1. split; [exact H1|]. apply bm_get_In in Hg. now apply (Hx n).
    Qed.
    Lemma visited_clean s : visited E (call_sites calls) s -> exists cx0 m cx1, schema_returns E (site_ty s) cx0 m cx1 /\ tidy m.
    Proof.
      assert (Hup : forall s, visited E (call_sites calls) s -> clean s -> exists cx0 m cx1, schema_returns E (site_ty s) cx0 m cx1 /\ tidy m).
      { intros s0 Hs0 [(t & -> & Hn)|H]; [|exact H]. apply linked_clean. now split. }
      induction 1 as [s Hs|s s' Hs IH Hs'].
      - apply Hup; [now constructor|]. unfold call_sites in Hs. apply in_map_iff in Hs as (c & <- & Hc). destruct Hm as [f Hf].
        destruct (call_returns _ _ _ _ Hf c Hc) as (cx2 & r & cx3 & Hc'). eapply clean_mention; [apply (Hv c Hc)|exact Hc'|].
        eapply Hr; [exact Hc|exists f; exact Hc'].
      - apply Hup; [now apply vis_step with s|]. destruct IH as (c0 & m & c1 & H1 & H2).
        exact (proj2 (step_conv _ _ _ _ (Hp s Hs) H1 H2) s' Hs').
    Qed.
    Lemma visited_neat s : visited E (call_sites calls) s -> neat_own E (site_ty s).
    Proof. intros Hs. destruct (visited_clean s Hs) as (c0 & m & c1 & H1 & H2). exact (proj1 (step_conv _ _ _ _ (Hp s Hs) H1 H2)). Qed.
    Lemma linked_name t n : linked E (call_sites calls) t -> type_name E t = Some n -> component_name n.
    Proof.
      intros Hl En. destruct (links_lead_to_own_schema E calls cx t n Hu Hm Hl En) as (m & Hg & _). apply bm_get_In in Hg. now apply (Hx n m).
    Qed.
  End History.
End Conv.
