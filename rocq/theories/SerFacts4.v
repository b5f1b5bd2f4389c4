(** Facts about serialisation: distinct keys, nulls, references, order. *)
From Coq Require Import Permutation.
From Verif Require Import SerSpec SchemaFacts SerFacts SerFacts2 SerFacts3.
Local Open Scope string_scope. Local Open Scope list_scope.

(** ** Moving around in a document *)
Lemma has_path_nested l p v m o k c p' v' : In (p, v) l -> In (m, o) (pv_operations v) -> In (k, c) (op_callbacks o) ->
  has_path (cb_paths c) p' v' -> has_path l p' v'.
Proof.
  intros H1 H2 H3 (l' & Hw & Hi). exists l'. split; [|exact Hi]. apply (within_trans l (cb_paths c)); [|exact Hw].
  eapply wi_callback; eauto using wi_self.
Qed.
Lemma has_operation_nested l p v m o k c o' : In (p, v) l -> In (m, o) (pv_operations v) -> In (k, c) (op_callbacks o) ->
  has_operation (cb_paths c) o' -> has_operation l o'.
Proof. intros H1 H2 H3 (p' & v' & m' & Hp & Hi). exists p', v', m'. split; [|exact Hi]. eapply has_path_nested; eauto. Qed.
Lemma has_path_self l p v : In (p, v) l -> has_path l p v.
Proof. intros H. exists l. split; [constructor|exact H]. Qed.
Lemma has_operation_self l p v m o : In (p, v) l -> In (m, o) (pv_operations v) -> has_operation l o.
Proof. intros H Ho. exists p, v, m. split; [now apply has_path_self|exact Ho]. Qed.

(** ** Keys *)
Definition QK (v : value) : Prop := match v with VMap l => NoDup (map fst l) | _ => True end.
Lemma QK_fixed v : is_fixed v -> QK v.
Proof. destruct v; cbn; auto. apply fixed_NoDup. Qed.
Lemma NoDup_map_inj {A B} (f : A -> B) l : (forall a b, f a = f b -> a = b) -> NoDup l -> NoDup (map f l).
Proof.
  intros Hf Hn. induction Hn; cbn; constructor; auto. intros Hi. apply in_map_iff in Hi. destruct Hi as (y & Hy & Hi).
  apply Hf in Hy. now subst.
Qed.
Lemma QK_ser_map {V} (f : V -> value) (m : bmap str V) : bm_sorted m -> QK (ser_map f m).
Proof.
  intros Hs. unfold ser_map. cbn [QK]. rewrite map_map. cbn [fst].
  rewrite <- (map_map fst VStr). apply NoDup_map_inj; [apply VStr_inj|]. now apply bm_sorted_NoDup.
Qed.
Lemma wf_model_child m m' : wf_model m -> child (Inline m') m -> wf_model m'.
Proof. intros [_ H]. apply H. Qed.
Lemma QK_path_value v : wf_path_value v -> QK (ser_path_value v).
Proof.
  intros (Hs & _ & _). unfold ser_path_value, ser_path_value_with. cbn [QK]. rewrite !map_app, map_map. cbn [fst].
  assert (Hm : NoDup (map (fun e => VStr (method_name (fst e))) (pv_operations v))).
  { rewrite <- (map_map fst (fun m => VStr (method_name m))). apply NoDup_map_inj; [intros a b [= E]; now apply method_name_inj|].
    now apply bm_sorted_NoDup. }
  assert (Hi : forall k, In k [u "summary"; u "description"; u "parameters"] -> ~ In (VStr k) (map (fun e => VStr (method_name (fst e))) (pv_operations v))).
  { intros k Hk Hi. apply in_map_iff in Hi. destruct Hi as (e & [= E] & _). symmetry in E. revert E. now apply not_method. }
  assert (Hp : forall l : list value, NoDup l -> (~ In (VStr (u "parameters")) l) -> NoDup (l ++ map fst (mem_seq "parameters" ser_parameters (pv_parameters v)))).
  { intros l Hl Hn. destruct (pv_parameters v); cbn [mem_seq]; [cbn; now rewrite app_nil_r|].
    eapply Permutation_NoDup; [apply Permutation_cons_append|]. now constructor. }
  assert (Hk : NoDup (map (fun e => VStr (method_name (fst e))) (pv_operations v) ++ map fst (mem_seq "parameters" ser_parameters (pv_parameters v)))).
  { apply Hp; [exact Hm|]. apply Hi. cbn; auto. }
  assert (Hpar : forall k, In (VStr k) (map fst (mem_seq "parameters" ser_parameters (pv_parameters v))) -> k = u "parameters").
  { intros k. destruct (pv_parameters v); cbn [mem_seq]; [intros []|]. intros [[= E]|[]]. now symmetry. }
  destruct (pv_description v); cbn [mem_opt].
  - assert (Hd : NoDup (map fst (mem "description" (VStr s)) ++ map (fun e => VStr (method_name (fst e))) (pv_operations v) ++ map fst (mem_seq "parameters" ser_parameters (pv_parameters v)))).
    { constructor; [|exact Hk]. rewrite in_app_iff. intros [H|H]; [revert H; apply Hi; cbn; auto|]. apply Hpar in H. discriminate. }
    destruct (pv_summary v); cbn [mem_opt]; [|exact Hd]. constructor; [|exact Hd].
    rewrite !in_app_iff. intros [H|[H|H]]; [destruct H as [H|[]]; discriminate|revert H; apply Hi; cbn; auto|].
    apply Hpar in H. discriminate.
  - destruct (pv_summary v); cbn [mem_opt]; [|exact Hk]. constructor; [|exact Hk].
    rewrite !in_app_iff. intros [H|[H|H]]; [destruct H|revert H; apply Hi; cbn; auto|]. apply Hpar in H. discriminate.
Qed.
Lemma distinct_nested l p v m o k c : distinct_paths l /\ wf_paths l -> In (p, v) l -> In (m, o) (pv_operations v) -> In (k, c) (op_callbacks o) ->
  distinct_paths (cb_paths c) /\ wf_paths (cb_paths c).
Proof.
  intros (Hd & Hv & Ho) H1 H2 H3. split; [|split].
  - intros l' Hw. apply Hd. apply (within_trans l (cb_paths c)); [|exact Hw]. eapply wi_callback; eauto using wi_self.
  - intros p' v' H. eapply Hv, has_path_nested; eauto.
  - intros o' H. eapply Ho, has_operation_nested; eauto.
Qed.
Lemma keys_distinct_of d : wf_opg d -> distinct_paths (og_paths d) -> keys_distinct (ser_opg d).
Proof.
  intros (Ht & Hp & (Hc1 & Hc2) & Hm) Hd l Hl.
  assert (H : All QK (ser_opg d)); [|exact (H _ Hl)]. clear l Hl.
  apply (All_opg QK) with (WM := wf_model) (WL := fun _ => True) (WO := wf_operation) (WV := wf_path_value)
    (WP := fun l => distinct_paths l /\ wf_paths l); try (intros; exact I).
  - apply wf_model_child.
  - intros m _. apply QK_fixed, fixed_model.
  - intros dd n p a r [H _]. apply (QK_ser_map ser_ref). exact H.
  - intros l _. cbn [ser_ref QK]. repeat constructor. intros [].
  - constructor.
  - intros s. apply QK_fixed, fixed_scheme.
  - intros b. apply QK_fixed, fixed_body.
  - intros b. apply QK_fixed, fixed_content.
  - intros b. apply QK_fixed, fixed_schema.
  - intros b. apply QK_fixed, fixed_response.
  - intros b. apply QK_fixed, fixed_parameter.
  - intros b. apply QK_fixed, fixed_operation.
  - intros b. apply QK_fixed, fixed_info.
  - intros b. apply QK_fixed, fixed_server.
  - intros b. apply QK_fixed, fixed_tag.
  - intros b. apply QK_fixed, fixed_components.
  - intros b. apply QK_fixed, fixed_opg.
  - intros o r (_ & _ & _ & _ & H) Hr. apply H in Hr. destruct r; exact Hr || exact I.
  - intros o b _ _. destruct (rb_description b); intros w Hw; inversion Hw; subst; exact I.
  - intros o s (H & _) Hs. now apply QK_ser_map, H.
  - intros o (_ & H & _). cbn [QK]. rewrite map_map. cbn [fst]. rewrite <- (map_map fst VNum).
    apply NoDup_map_inj; [congruence|]. now apply bm_sorted_NoDup.
  - intros o (_ & _ & _ & H & _). now apply (QK_ser_map ser_callback).
  - intros v r (_ & _ & H) Hr. apply H in Hr. destruct r; exact Hr || exact I.
  - apply QK_path_value.
  - intros l [H _]. unfold ser_paths, ser_paths_with. cbn [QK]. rewrite map_map. cbn [fst].
    rewrite <- (map_map (fun e => render_path (fst e)) VStr). apply NoDup_map_inj; [apply VStr_inj|]. apply H. constructor.
  - intros l p v (_ & H & _) Hi. apply (H p v). now apply has_path_self.
  - intros l p v m o (_ & _ & H) Hi Ho. apply H. eapply has_operation_self; eauto.
  - apply distinct_nested.
  - split; assumption.
  - exact Hm.
  - now apply QK_ser_map.
  - now apply QK_ser_map.
Qed.

Lemma part_mem k v w l : In (VStr (u k), v) l -> part w v -> part w (VMap l).
Proof. apply part_entry. Qed.
Lemma In_mem_seq {A} k (f : list A -> value) l x : In x l -> In (VStr (u k), f l) (mem_seq k f l).
Proof. destruct l; [intros []|]. intros _. now left. Qed.
Lemma part_callback l p v m o k c : In (p, v) l -> In (m, o) (pv_operations v) -> In (k, c) (op_callbacks o) -> part (ser_callback c) (ser_paths l).
Proof.
  intros H1 H2 H3. unfold ser_paths, ser_paths_with. eapply part_entry; [apply in_map_iff; exists (p, v); split; [reflexivity|exact H1]|].
  cbn [snd]. unfold ser_path_value_with. eapply part_entry.
  { apply in_or_app. right. apply in_or_app. right. apply in_or_app. left. apply in_map_iff. exists (m, o). split; [reflexivity|exact H2]. }
  cbn [snd]. unfold ser_operation_with. eapply part_entry.
  { do 9 (apply in_or_app; right). eapply In_mem_seq; eauto. }
  eapply part_entry; [apply in_map_iff; exists (k, c); split; [reflexivity|exact H3]|]. constructor.
Qed.
Lemma part_operation l p v m o : In (p, v) l -> In (m, o) (pv_operations v) -> part (ser_operation o) (ser_paths l).
Proof.
  intros H1 H2. unfold ser_paths, ser_paths_with. eapply part_entry; [apply in_map_iff; exists (p, v); split; [reflexivity|exact H1]|].
  cbn [snd]. unfold ser_path_value_with. eapply part_entry.
  { apply in_or_app. right. apply in_or_app. right. apply in_or_app. left. apply in_map_iff. exists (m, o). split; [reflexivity|exact H2]. }
  constructor.
Qed.
Lemma part_within l0 l : within l0 l -> part (ser_paths l) (ser_paths l0).
Proof.
  induction 1 as [|l p v m o k c Hw IH H1 H2 H3]; [constructor|]. eapply part_trans; [|exact IH].
  destruct c as [lc]. exact (part_callback l p v m o k _ H1 H2 H3).
Qed.
Lemma part_paths d x : In x (og_paths d) -> part (ser_paths (og_paths d)) (ser_opg d).
Proof.
  intros H. unfold ser_opg. eapply part_entry; [|constructor].
  do 4 (apply in_or_app; right). apply in_or_app. left. eapply In_mem_seq; eauto.
Qed.
Lemma keys_distinct_iff d : wf_opg d -> (keys_distinct (ser_opg d) <-> distinct_paths (og_paths d)).
Proof.
  intros Hw. split; [|now apply keys_distinct_of]. intros H l Hl.
  destruct (og_paths d) as [|x l0] eqn:E.
  - remember [] as l0 eqn:El. induction Hl; subst; [constructor|].
    exfalso. assert (Hn : forall l, within [] l -> l = []).
    { clear. induction 1 as [|l p v m o k c Hw IH H1 H2 H3]; [reflexivity|]. subst. destruct H1. }
    apply Hn in Hl. subst. destruct H0.
  - rewrite <- E in Hl. assert (Hp : part (ser_paths l) (ser_opg d)).
    { eapply part_trans; [apply part_within; exact Hl|]. apply part_paths with x. rewrite E. now left. }
    apply H in Hp. rewrite map_map in Hp. cbn [fst] in Hp. rewrite <- (map_map (fun e => render_path (fst e)) VStr) in Hp.
    now apply NoDup_map_inv in Hp.
Qed.

(** ** Nulls *)
Lemma no_null_of d : bodies_described (og_paths d) -> no_null (ser_opg d).
Proof.
  intros Hb Hp. assert (H : All (fun v => v <> VNull) (ser_opg d)); [|exact (H _ Hp eq_refl)]. clear Hp.
  apply (All_opg (fun v => v <> VNull)) with (WM := fun _ => True) (WL := fun _ => True)
    (WO := fun o => forall b, op_body o = Some b -> rb_description b <> None) (WV := fun _ => True) (WP := bodies_described);
    try (intros; exact I); try (intros; discriminate).
  - intros [? ?]; discriminate.
  - intros [[|]|]; discriminate.
  - intros [? ?]; discriminate.
  - intros o [|m|] _ _; exact I.
  - intros o b H Hb1. specialize (H b Hb1). destruct (rb_description b); [|congruence]. intros w Hw. inversion Hw. discriminate.
  - intros v [|m|] _ _; exact I.
  - intros l p v m o H Hi Ho b. apply H. eapply has_operation_self; eauto.
  - intros l p v m o k c H H1 H2 H3 o' b Ho. apply H. eapply has_operation_nested; eauto.
  - exact Hb.
Qed.
Lemma part_has_operation l o : has_operation l o -> part (ser_operation o) (ser_paths l).
Proof.
  intros (p & v & m & (l' & Hw & Hi) & Ho). eapply part_trans; [|apply part_within; exact Hw]. eapply part_operation; eauto.
Qed.
Lemma has_operation_nonempty l o : has_operation l o -> exists x, In x l.
Proof.
  intros (p & v & m & (l' & Hw & Hi) & Ho). clear Ho m. revert p v Hi. induction Hw; intros; eauto.
Qed.
Lemma no_null_iff d : no_null (ser_opg d) <-> bodies_described (og_paths d).
Proof.
  split; [|apply no_null_of]. intros H o b Ho Hb Hn. apply H. destruct (has_operation_nonempty _ _ Ho) as [x Hx].
  eapply part_trans; [|eapply part_paths; eauto]. eapply part_trans; [|apply part_has_operation; eauto].
  unfold ser_operation, ser_operation_with. eapply part_entry.
  { do 6 (apply in_or_app; right). apply in_or_app. left. rewrite Hb. now left. }
  unfold ser_body. eapply part_entry; [|constructor]. apply in_or_app. right. apply in_or_app. left. rewrite Hn. now left.
Qed.

(** ** References *)
Section Refs.
  Variable ok : str -> Prop.
  Definition okt (s : str) : Prop := exists n, s = SCHEMA_REFERENCE_PREFIX ++ n /\ ok n.
  Definition QR (v : value) : Prop := match v with VMap l => forall s, In (VStr (u "$ref"), VStr s) l -> okt s | _ => True end.
  Lemma QR_fixed v : is_fixed v -> QR v.
  Proof. destruct v; cbn [is_fixed QR]; auto. intros Hf s Hi. exfalso. eapply fixed_ref; eauto. Qed.
  Lemma QR_map {A} (f g : A -> value) l : (forall a s, g a <> VStr s) -> QR (VMap (map (fun a => (f a, g a)) l)).
  Proof. intros Hg s Hi. apply in_map_iff in Hi. destruct Hi as (a & [= _ E] & _). now apply Hg in E. Qed.
  Lemma not_str_ref r s : ser_ref r <> VStr s.
  Proof. destruct r as [l|[d data]|]; discriminate. Qed.
  Lemma not_str_scheme x s : ser_scheme x <> VStr s.
  Proof. destruct x as [[|]|]; discriminate. Qed.
  Lemma not_str_callback c s : ser_callback c <> VStr s.
  Proof. destruct c; discriminate. Qed.
  Lemma QR_path_value v : QR (ser_path_value v).
  Proof.
    unfold ser_path_value, ser_path_value_with. cbn [QR]. intros s H. exfalso.
    apply in_app_iff in H. destruct H as [H|H]; [destruct (pv_summary v); [destruct H as [H|[]]; discriminate|destruct H]|].
    apply in_app_iff in H. destruct H as [H|H]; [destruct (pv_description v); [destruct H as [H|[]]; discriminate|destruct H]|].
    apply in_app_iff in H. destruct H as [H|H].
    - apply in_map_iff in H. destruct H as (e & E & _). apply pair_equal_spec in E. destruct E as [E _]. destruct (fst e); discriminate E.
    - destruct (pv_parameters v); [destruct H|destruct H as [H|[]]; discriminate].
  Qed.
  Lemma paths_ref_nested l p v m o k c r : In (p, v) l -> In (m, o) (pv_operations v) -> In (k, c) (op_callbacks o) ->
    paths_ref r (cb_paths c) -> paths_ref r l.
  Proof.
    intros H1 H2 H3 [(p' & v' & Hp & Hr)|(o' & Ho & Hr)]; [left; exists p', v'; split; [eapply has_path_nested; eauto|exact Hr]|].
    right. exists o'. split; [eapply has_operation_nested; eauto|exact Hr].
  Qed.
  Definition ok_ref (r : model_ref) : Prop := forall n, occurs n r -> ok n.
  Lemma ok_ref_WR r : ok_ref r -> WR (fun m => forall n, occurs_in n m -> ok n) ok r.
  Proof.
    destruct r as [l|m|]; cbn; intros H; [apply H; constructor| |exact I].
    intros n (r & Hc & Ho). apply H. econstructor; eauto.
  Qed.
  Lemma refs_ok d :
    (forall r, paths_ref r (og_paths d) -> ok_ref r) ->
    (forall k m, In (k, m) (cx_schemas (og_components d)) -> forall n, occurs_in n m -> ok n) ->
    forall s, has_ref s (ser_opg d) -> okt s.
  Proof.
    intros Hp Hm s (l & Hpart & Hi). assert (H : All QR (ser_opg d)); [|exact (H _ Hpart s Hi)]. clear l s Hpart Hi.
    apply (All_opg QR) with (WM := fun m => forall n, occurs_in n m -> ok n) (WL := ok)
      (WO := fun o => forall r, operation_ref r o -> ok_ref r) (WV := fun v => forall r, path_ref r v -> ok_ref r)
      (WP := fun l => forall r, paths_ref r l -> ok_ref r); try (intros; exact I).
    - intros m m' H Hc n (r & Hr & Ho). apply H. exists (Inline m'). split; [exact Hc|]. econstructor; eauto.
    - intros m _. apply QR_fixed, fixed_model.
    - intros. apply (QR_map (fun e => VStr (fst e)) (fun e => ser_ref (snd e))). intros. apply not_str_ref.
    - intros m n H Hc. apply H. exists (Link n). split; [exact Hc|constructor].
    - intros n H s [[= <-]|[]]. exists n. split; [reflexivity|exact H].
    - intros s [].
    - intros x. apply QR_fixed, fixed_scheme.
    - intros b. apply QR_fixed, fixed_body.
    - intros b. apply QR_fixed, fixed_content.
    - intros b. apply QR_fixed, fixed_schema.
    - intros b. apply QR_fixed, fixed_response.
    - intros b. apply QR_fixed, fixed_parameter.
    - intros b. apply QR_fixed, fixed_operation.
    - intros b. apply QR_fixed, fixed_info.
    - intros b. apply QR_fixed, fixed_server.
    - intros b. apply QR_fixed, fixed_tag.
    - intros b. apply QR_fixed, fixed_components.
    - intros b. apply QR_fixed, fixed_opg.
    - intros o r H Hr. now apply ok_ref_WR, H.
    - intros o b _ _. destruct (rb_description b); intros w Hw; inversion Hw; subst; exact I.
    - intros o x _ _. apply (QR_map (fun e => VStr (fst e)) (fun e => ser_strs (snd e))). discriminate.
    - intros o _. apply (QR_map (fun e => VNum (fst e)) (fun e => ser_response (snd e))). discriminate.
    - intros o _. apply (QR_map (fun e => VStr (fst e)) (fun e => ser_callback (snd e))). intros. apply not_str_callback.
    - intros v r H Hr. now apply ok_ref_WR, H.
    - intros v _. apply QR_path_value.
    - intros x _. apply (QR_map (fun e => VStr (render_path (fst e))) (fun e => ser_path_value (snd e))). discriminate.
    - intros x p v H Hi r Hr. apply H. left. exists p, v. split; [now apply has_path_self|exact Hr].
    - intros x p v m o H Hi Ho r Hr. apply H. right. exists o. split; [eapply has_operation_self; eauto|exact Hr].
    - intros x p v m o k c H H1 H2 H3 r Hr. apply H. eapply paths_ref_nested; eauto.
    - exact Hp.
    - exact Hm.
    - apply (QR_map (fun e => VStr (fst e)) (fun e => ser_model (snd e))). intros [? m]. apply (not_str_ref (Inline m)).
    - apply (QR_map (fun e => VStr (fst e)) (fun e => ser_scheme (snd e))). intros. apply not_str_scheme.
  Qed.
End Refs.
Lemma refs_are_links d s : has_ref s (ser_opg d) -> exists n, s = SCHEMA_REFERENCE_PREFIX ++ n /\ doc_link n d.
Proof.
  intros H. refine (refs_ok (fun n => doc_link n d) d _ _ s H).
  - intros r Hr n Ho. left. eauto.
  - intros k m Hi n Ho. right. eauto.
Qed.

(** ** Order *)
Lemma sorted_ascending {K V} `{Ord K} (m : bmap K V) : bm_sorted m <-> ascending (bm_keys m).
Proof.
  split.
  - induction 1; cbn; constructor; auto.
  - induction m as [|[k v] m IH]; cbn; intros Ha; inversion Ha; subst; constructor; auto.
Qed.
Lemma declare_sorted {K V} `{Ord K} (l : list (K * V)) : bm_sorted (declare l).
Proof.
  unfold declare. enough (G : forall m, bm_sorted m -> bm_sorted (fold_left (fun m e => bm_insert (fst e) (snd e) m) l m)) by (apply G; constructor).
  induction l as [|e l IH]; cbn; intros m Hm; [exact Hm|]. now apply IH, bm_insert_sorted.
Qed.
Lemma declare_app {K V} `{Ord K} (l : list (K * V)) e : declare (l ++ [e]) = bm_insert (fst e) (snd e) (declare l).
Proof. unfold declare. now rewrite fold_left_app. Qed.
(** the last declaration of [k] *)
Definition last_declared {K V} `{Ord K} (k : K) (l : list (K * V)) : option V :=
  fold_left (fun o e => match kcmp k (fst e) with Eq => Some (snd e) | _ => o end) l None.
Lemma declare_get {K V} `{Ord K} (l : list (K * V)) k : bm_get k (declare l) = last_declared k l.
Proof.
  induction l as [|e l IH] using rev_ind; [reflexivity|].
  rewrite declare_app. unfold last_declared. rewrite fold_left_app. cbn [fold_left]. fold (last_declared k l).
  destruct (kcmp k (fst e)) eqn:Ek.
  - apply kcmp_eq in Ek. subst. apply bm_get_insert_eq.
  - rewrite bm_get_insert_neq; [exact IH|]. intros ->. rewrite (proj2 (kcmp_eq (fst e) (fst e)) eq_refl) in Ek. discriminate.
  - rewrite bm_get_insert_neq; [exact IH|]. intros ->. rewrite (proj2 (kcmp_eq (fst e) (fst e)) eq_refl) in Ek. discriminate.
Qed.
Lemma last_declared_unique {K V} `{Ord K} (l : list (K * V)) k v : NoDup (map fst l) -> In (k, v) l -> last_declared k l = Some v.
Proof.
  induction l as [|[k1 v1] l IH] using rev_ind; [intros _ []|]. rewrite map_app. intros Hn Hi. unfold last_declared. rewrite fold_left_app.
  cbn [fold_left fst snd]. fold (last_declared k l). apply NoDup_remove in Hn. rewrite app_nil_r in Hn. destruct Hn as [Hn Hk].
  apply in_app_iff in Hi. destruct Hi as [Hi|[[= -> ->]|[]]].
  - destruct (kcmp k k1) eqn:E; [|now apply IH|now apply IH]. apply kcmp_eq in E. subst k1. exfalso. apply Hk.
    apply in_map_iff. now exists (k, v).
  - now rewrite (proj2 (kcmp_eq k k) eq_refl).
Qed.
Lemma last_declared_In {K V} `{Ord K} (l : list (K * V)) k v : last_declared k l = Some v -> In (k, v) l.
Proof.
  induction l as [|[k1 v1] l IH] using rev_ind; [discriminate|]. unfold last_declared. rewrite fold_left_app. cbn [fold_left fst snd].
  fold (last_declared k l). rewrite in_app_iff. destruct (kcmp k k1) eqn:E; auto. intros [= <-]. apply kcmp_eq in E. subst. right. now left.
Qed.
Lemma declare_permutation {K V} `{Ord K} (l l' : list (K * V)) : NoDup (map fst l) -> Permutation l l' -> declare l = declare l'.
Proof.
  intros Hn Hp. apply bm_ext; [apply declare_sorted|apply declare_sorted|]. intros k. rewrite !declare_get.
  assert (Hn' : NoDup (map fst l')) by (eapply Permutation_NoDup; [apply Permutation_map; exact Hp|exact Hn]).
  destruct (last_declared k l) as [v|] eqn:E.
  - apply last_declared_In in E. symmetry. apply last_declared_unique; [exact Hn'|]. eapply Permutation_in; eauto.
  - destruct (last_declared k l') as [v|] eqn:E'; [|reflexivity]. apply last_declared_In in E'.
    rewrite (last_declared_unique l k v) in E; [discriminate|exact Hn|]. eapply Permutation_in; [apply Permutation_sym; exact Hp|exact E'].
Qed.

Lemma ascending_unique {K} `{Ord K} (l l' : list K) : ascending l -> ascending l' -> (forall k, In k l <-> In k l') -> l = l'.
Proof.
  intros Ha. revert l'. induction Ha as [|k l Hk Ha IH]; intros l' Ha' He.
  - destruct l' as [|k' l']; [reflexivity|]. exfalso. apply (He k'). now left.
  - destruct Ha' as [|k' l' Hk' Ha'].
    + exfalso. apply (He k). now left.
    + assert (k = k').
      { destruct (proj1 (He k) (or_introl eq_refl)) as [->|H1]; [reflexivity|].
        destruct (proj2 (He k') (or_introl eq_refl)) as [->|H2]; [reflexivity|].
        exfalso. eapply kcmp_lt_asym; [apply Hk, H2|apply Hk', H1]. }
      subst k'. f_equal. apply IH; [exact Ha'|]. intros x. split; intros Hx.
      * destruct (proj1 (He x) (or_intror Hx)) as [->|Hx']; [exfalso; apply Hk in Hx; now apply kcmp_lt_irrefl in Hx|exact Hx'].
      * destruct (proj2 (He x) (or_intror Hx)) as [->|Hx']; [exfalso; apply Hk' in Hx; now apply kcmp_lt_irrefl in Hx|exact Hx'].
Qed.
Lemma ascending_filter {K} `{Ord K} f (l : list K) : ascending l -> ascending (filter f l).
Proof.
  induction 1 as [|k l Hk Ha IH]; cbn; [constructor|]. destruct (f k); [|exact IH]. constructor; [|exact IH].
  intros k' Hk'. apply filter_In in Hk'. now apply Hk.
Qed.
Lemma methods_ascending : ascending all_methods.
Proof. repeat (constructor; [cbn [In]; intros k' Hk'; repeat (destruct Hk' as [<-|Hk']; [reflexivity|]); destruct Hk'|]). constructor. Qed.
Lemma methods_order {V} (m : bmap http_method V) : bm_sorted m -> bm_keys m = filter (fun k => bm_mem k m) all_methods.
Proof.
  intros Hs. apply ascending_unique.
  - now apply sorted_ascending.
  - apply ascending_filter, methods_ascending.
  - intros k. rewrite filter_In, bm_mem_true. split; [|tauto]. intros H. split; [|exact H]. destruct k; cbn; tauto.
Qed.

Lemma opt_list_Some {A} (f : list A -> value) (l : list A) v : opt_list f l = Some v -> v = f l.
Proof. destruct l; cbn; congruence. Qed.
Lemma ser_map_keys {V} (f : V -> value) (m : bmap str V) : has_keys (ser_map f m) (map VStr (bm_keys m)).
Proof. eexists. split; [reflexivity|]. unfold bm_keys. now rewrite !map_map. Qed.
Lemma ser_parameters_names m : has_names (ser_parameters m) (bm_keys m).
Proof.
  eexists. split; [reflexivity|]. unfold bm_keys. rewrite !map_map. apply map_ext. now intros [k a].
Qed.

Ltac lookup_goal H := unfold at_ in H; cbn [fold_left member] in H; simpl_lookup H.

Lemma opg_order d : wf_opg d ->
  (forall v, member "tags" (ser_opg d) = Some v -> has_names v (bm_keys (og_tags d))) /\ ascending (bm_keys (og_tags d)) /\
  (forall v, at_ ["components"; "schemas"] (ser_opg d) = Some v -> has_keys v (map VStr (bm_keys (cx_schemas (og_components d))))) /\
  ascending (bm_keys (cx_schemas (og_components d))) /\
  (forall v, at_ ["components"; "securitySchemes"] (ser_opg d) = Some v -> has_keys v (map VStr (bm_keys (cx_security (og_components d))))) /\
  ascending (bm_keys (cx_security (og_components d))) /\
  (forall v, member "paths" (ser_opg d) = Some v -> has_keys v (map (fun e => VStr (render_path (fst e))) (og_paths d))) /\
  (forall v, member "servers" (ser_opg d) = Some v -> exists l, v = VSeq l /\ map (member "url") l = map (fun s => Some (VStr (sv_url s))) (og_servers d)).
Proof.
  intros (Ht & _ & (Hc1 & Hc2) & _). repeat split; try (now apply sorted_ascending).
  - intros v H. unfold ser_opg in H. lookup_goal H. apply opt_list_Some in H. subst v. eexists. split; [reflexivity|].
    unfold bm_keys. rewrite !map_map. reflexivity.
  - intros v H. unfold ser_opg in H. lookup_goal H. unfold ser_components in H. cbn [member] in H. simpl_lookup H.
    apply opt_list_Some in H. subst v. apply ser_map_keys.
  - intros v H. unfold ser_opg in H. lookup_goal H. unfold ser_components in H. cbn [member] in H. simpl_lookup H.
    apply opt_list_Some in H. subst v. apply ser_map_keys.
  - intros v H. unfold ser_opg in H. lookup_goal H. apply opt_list_Some in H. subst v. eexists. split; [reflexivity|]. rewrite map_map. reflexivity.
  - intros v H. unfold ser_opg in H. lookup_goal H. apply opt_list_Some in H. subst v. eexists. split; [reflexivity|]. rewrite map_map. reflexivity.
Qed.
Lemma path_value_order v : wf_path_value v ->
  (exists pre ops post, ser_path_value v = VMap (pre ++ ops ++ post) /\
    map fst ops = map (fun m => VStr (method_name m)) (filter (fun m => bm_mem m (pv_operations v)) all_methods) /\
    (forall e m, In e (pre ++ post) -> fst e <> VStr (method_name m))) /\
  (forall w, member "parameters" (ser_path_value v) = Some w -> has_names w (bm_keys (pv_parameters v))) /\ ascending (bm_keys (pv_parameters v)).
Proof.
  intros (Ho & Hp & _). split; [|split; [|now apply sorted_ascending]].
  - exists (mem_opt "summary" VStr (pv_summary v) ++ mem_opt "description" VStr (pv_description v)), (map ser_method (pv_operations v)), (mem_seq "parameters" ser_parameters (pv_parameters v)).
    split; [|split].
    + unfold ser_path_value, ser_path_value_with. now rewrite <- app_assoc.
    + rewrite <- methods_order by exact Ho. unfold bm_keys. now rewrite !map_map.
    + intros e m He Hf. assert (Hk : exists k, In k [u "summary"; u "description"; u "parameters"] /\ fst e = VStr k).
      { rewrite !in_app_iff in He. destruct He as [[He|He]|He].
        - destruct (pv_summary v); [|destruct He]. destruct He as [<-|[]]. exists (u "summary"). cbn; auto.
        - destruct (pv_description v); [|destruct He]. destruct He as [<-|[]]. exists (u "description"). cbn; auto.
        - destruct (pv_parameters v); [destruct He|]. destruct He as [<-|[]]. exists (u "parameters"). cbn; auto. }
      destruct Hk as (k & Hk & Ek). rewrite Ek in Hf. injection Hf as Hf. revert Hf. now apply not_method.
  - intros w H. unfold ser_path_value, ser_path_value_with in H. fold ser_operation in H.
    change (map (fun e => (VStr (method_name (fst e)), ser_operation (snd e))) (pv_operations v)) with (map ser_method (pv_operations v)) in H.
    cbn [member] in H. simpl_lookup H. rewrite lookup_methods in H by (apply not_method; cbn; auto). apply opt_list_Some in H. subst w. apply ser_parameters_names.
Qed.
Lemma operation_order o : wf_operation o ->
  (forall v, member "responses" (ser_operation o) = Some v -> has_keys v (map VNum (bm_keys (op_responses o)))) /\ ascending (bm_keys (op_responses o)) /\
  (forall v, member "parameters" (ser_operation o) = Some v -> has_names v (bm_keys (op_parameters o))) /\ ascending (bm_keys (op_parameters o)) /\
  (forall v, member "callbacks" (ser_operation o) = Some v -> has_keys v (map VStr (bm_keys (op_callbacks o)))) /\ ascending (bm_keys (op_callbacks o)) /\
  (forall v, member "security" (ser_operation o) = Some v -> exists l, v = VSeq l /\ Forall2 (fun w s => has_keys w (map VStr (bm_keys s))) l (op_security o)) /\
  (forall s, In s (op_security o) -> ascending (bm_keys s)) /\
  (forall v, member "tags" (ser_operation o) = Some v -> v = VSeq (map VStr (op_tags o))).
Proof.
  intros (Hs & Hr & Hp & Hc & _). unfold ser_operation, ser_operation_with. cbn [member].
  repeat split; try (now apply sorted_ascending).
  - intros v H. simpl_lookup H. injection H as <-. eexists. split; [reflexivity|]. unfold bm_keys. now rewrite !map_map.
  - intros v H. simpl_lookup H. apply opt_list_Some in H. subst v. apply ser_parameters_names.
  - intros v H. simpl_lookup H. apply opt_list_Some in H. subst v. apply (ser_map_keys ser_callback).
  - intros v H. simpl_lookup H. apply opt_list_Some in H. subst v. eexists. split; [reflexivity|]. clear.
    induction (op_security o); cbn; constructor; auto. apply ser_map_keys.
  - intros s H. apply sorted_ascending. now apply Hs.
  - intros v H. simpl_lookup H. now apply opt_list_Some in H.
Qed.
Lemma schema_order m o : wf_model m -> object_of m = Some o ->
  (forall v, member "properties" (ser_model m) = Some v -> has_keys v (map VStr (bm_keys (mo_properties o)))) /\
  ascending (bm_keys (mo_properties o)) /\
  (forall v, member "required" (ser_model m) = Some v -> v = VSeq (map VStr (mo_required o))).
Proof.
  intros [Ht _] Ho. unfold wf_toplevel in Ht. rewrite Ho in Ht. destruct m as [d [[n [?|?|?| |?|o']]|?|?|?]]; try discriminate.
  injection Ho as ->. destruct o as [p a r]. cbn [ser_model ser_data ser_type ser_desc ser_object member mo_properties mo_required].
  split; [|split; [now apply sorted_ascending|]].
  - intros v H. simpl_lookup H. apply opt_list_Some in H. subst v. apply (ser_map_keys ser_ref).
  - intros v H. simpl_lookup H. now apply opt_list_Some in H.
Qed.
