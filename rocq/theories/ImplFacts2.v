(** The impls of lib.rs are what the macro writes; and what goes wrong with the macro elsewhere. *)
From Verif Require Import Match Syntax SyntaxSpec SchemaSpec Gen Impl ImplSpec ImplFacts LibImpls.
Local Open Scope string_scope. Local Open Scope list_scope.

Lemma wrap_acts E z w t : acts_as E (IkWrap false z) [t] (TWrap w t).
Proof. repeat split. Qed.
Lemma option_acts E z t : acts_as E (IkWrap true z) [t] (TOption t).
Proof. repeat split. Qed.
Lemma array_acts E k t : acts_as E IkArray [t] (TSeq k t).
Proof. repeat split. Qed.
Lemma dict_acts E k t : acts_as E IkDict [t] (TDict k t).
Proof. repeat split. Qed.
Lemma tuple_acts E ns ts : length ns = length ts -> acts_as E (IkTuple ns) ts (TTuple ts).
Proof. intros H. split; [|repeat split]. intros gs cx. cbn [impl_schema]. now rewrite H, PeanoNat.Nat.eqb_refl. Qed.
Lemma const_acts E p : acts_as E (IkConst (prim_schema p)) [] (TPrim p).
Proof. repeat split. Qed.
Lemma written_one C ts it f : impl_opg_model C opg_scope ts = Some it -> (forall E t, acts_as E (ii_kind it) [t] (f t)) -> as_written C (ts, one f).
Proof. intros H Ha. exists it. split; [exact H|]. intros E [|t []] t'; try discriminate. intros [= <-]. apply Ha. Qed.
Lemma written_none C ts it t : impl_opg_model C opg_scope ts = Some it -> (forall E, acts_as E (ii_kind it) [] t) -> as_written C (ts, none t).
Proof. intros H Ha. exists it. split; [exact H|]. intros E [|] t'; try discriminate. intros [= <-]. apply Ha. Qed.
Lemma written_tuple C ts it n ns : impl_opg_model C opg_scope ts = Some it -> ii_kind it = IkTuple ns -> length ns = n -> as_written C (ts, tuple n).
Proof.
  intros H Hk Hn. exists it. split; [exact H|]. intros E args t Ht. cbn [snd] in Ht. unfold tuple in Ht. destruct (Nat.eqb (length args) n) eqn:En; [|discriminate]. injection Ht as <-.
  rewrite Hk. apply tuple_acts. apply PeanoNat.Nat.eqb_eq in En. congruence.
Qed.
Lemma lib_written C : Forall (as_written C) lib_impls.
Proof.
  unfold lib_impls. apply Forall_app. split.
  - unfold single_impls. repeat (apply Forall_cons; [first
      [eapply written_none; [vm_compute; reflexivity|intros E; repeat split]
      |eapply written_one; [vm_compute; reflexivity|intros E t; repeat split]
      |eapply written_tuple; [vm_compute; reflexivity|reflexivity|reflexivity]]|]). apply Forall_nil.
  - apply Forall_forall. intros e He. apply in_map_iff in He. destruct He as (n & <- & _). eapply written_one; [apply impl_complete; apply if_array; [discriminate|reflexivity]|].
    intros E t. apply array_acts.
Qed.

(** ** No type has been forgotten *)
Definition prim_dec (a b : prim) : {a = b} + {a <> b}. Proof. decide equality. Defined.
Definition wrapper_dec (a b : wrapper) : {a = b} + {a <> b}. Proof. decide equality. Defined.
Definition seq_dec (a b : seq_kind) : {a = b} + {a <> b}. Proof. decide equality. apply N.eq_dec. Defined.
Definition dict_dec (a b : dict_kind) : {a = b} + {a <> b}. Proof. decide equality. Defined.
(** the impl for [t], given [args] *)
Definition impl_for (args : list ty) (t : ty) (e : list tree * (list ty -> option ty)) : bool :=
  match snd e args, t with
  | Some (TPrim p), TPrim q => if prim_dec p q then true else false
  | Some (TWrap p _), TWrap q _ => if wrapper_dec p q then true else false
  | Some (TOption _), TOption _ => true
  | Some (TSeq p _), TSeq q _ => if seq_dec p q then true else false
  | Some (TDict p _), TDict q _ => if dict_dec p q then true else false
  | _, _ => false
  end.
Lemma single_in args t e : find (impl_for args t) single_impls = Some e -> snd e args = Some t -> exists e args, In e lib_impls /\ snd e args = Some t.
Proof. intros H He. exists e, args. split; [|exact He]. apply in_or_app. left. now apply find_some in H. Qed.
Lemma tuple_in n : 2 <= n <= 10 -> exists e, In e single_impls /\ forall args, snd e args = tuple n args.
Proof.
  intros H. assert (Hn : In n (map (fun k => k) [2;3;4;5;6;7;8;9;10])) by (cbn; lia). rewrite map_id in Hn.
  assert (F : Forall (fun n => exists e, nth_error single_impls (34 + n) = Some e /\ forall args, snd e args = tuple n args) [2;3;4;5;6;7;8;9;10])
    by (repeat (apply Forall_cons; [eexists; split; [cbn; reflexivity|reflexivity]|]); apply Forall_nil).
  rewrite Forall_forall in F. destruct (F n Hn) as (e & He & Ha). exists e. split; [now apply nth_error_In in He|exact Ha].
Qed.
Lemma none_by p : by_hand p = false -> forall args t, none (TPrim p) args = Some t -> by_macro t.
Proof. intros H args t E. destruct args; [|discriminate]. injection E as <-. now constructor. Qed.
Lemma one_by f : (forall t, by_macro (f t)) -> forall args t, one f args = Some t -> by_macro t.
Proof. intros H args t E. destruct args as [|t1 [|]]; try discriminate. injection E as <-. apply H. Qed.
Lemma tuple_by n : 2 <= n <= 10 -> forall args t, tuple n args = Some t -> by_macro t.
Proof. intros H args t. unfold tuple. destruct (PeanoNat.Nat.eqb_spec (length args) n) as [E|]; [|discriminate]. intros [= <-]. constructor. lia. Qed.
Lemma lib_covers t : by_macro t <-> exists e args, In e lib_impls /\ snd e args = Some t.
Proof.
  split.
  - intros [p Hp|w t'|t'|ts Hl|k t' Hk|k t'].
    + destruct p; try discriminate Hp; (eapply (single_in []); [vm_compute; reflexivity|reflexivity]).
    + destruct w; (eapply (single_in [t']); [vm_compute; reflexivity|reflexivity]).
    + eapply (single_in [t']); [vm_compute; reflexivity|reflexivity].
    + destruct (tuple_in _ Hl) as (e & He & Ha). exists e, ts. split; [apply in_or_app; now left|]. rewrite Ha. unfold tuple. now rewrite PeanoNat.Nat.eqb_refl.
    + destruct k as [| | | | | |n]; try (eapply (single_in [t']); [vm_compute; reflexivity|reflexivity]).
      exists (array_impl n), [t']. split; [|reflexivity]. apply in_or_app. right. apply in_map. unfold array_lengths. apply in_map_iff. exists (N.to_nat n).
      split; [apply N2Nat.id|]. apply in_seq. specialize (Hk n eq_refl). lia.
    + destruct k; (eapply (single_in [t']); [vm_compute; reflexivity|reflexivity]).
  - intros (e & args & Hin & He). apply in_app_or in Hin as [Hin|Hin].
    + assert (F : Forall (fun e => forall args t, snd e args = Some t -> by_macro t) single_impls).
      { clear. unfold single_impls. repeat (apply Forall_cons; [cbn [snd]; first [apply none_by; reflexivity|apply one_by; intros; constructor; discriminate|apply one_by; intros; constructor|apply tuple_by; lia]|]). apply Forall_nil. }
      rewrite Forall_forall in F. exact (F e Hin args t He).
    + apply in_map_iff in Hin. destruct Hin as (n & <- & Hn). destruct args as [|t1 [|]]; try discriminate He. injection He as <-. constructor. intros m [= <-].
      unfold array_lengths in Hn. apply in_map_iff in Hn. destruct Hn as (i & <- & Hi). apply in_seq in Hi. lia.
Qed.

(** ** What goes wrong *)
Lemma plain_needs_t C S ts it : impl_opg_model C S ts = Some it -> type_t S = None -> forall m n, ii_kind it <> IkNamed m n.
Proof. intros H Ht m n E. apply impl_spec in H. destruct H; cbn in E; try discriminate E; congruence. Qed.
Lemma bare_refuses C ts it : impl_opg_model C bare_scope ts = Some it ->
  (exists n z, ii_kind it = IkWrap n z) \/ exists ns, ii_kind it = IkTuple ns.
Proof. intros H. apply impl_spec in H. destruct H; cbn in *; try discriminate; eauto. Qed.
Lemma same_rest C S S' ts it : impl_opg_model C S ts = Some it -> model_in_scope S' = true -> serde_in_scope S' = true -> type_t S = None ->
  impl_opg_model C S' ts = Some it.
Proof. intros H Hm Hs Ht. apply impl_spec in H. apply impl_spec. destruct H; try congruence; econstructor; eauto. Qed.
Lemma plain_form_refused C S k fmt t : type_t S = None -> k <> u "generic_simple" ->
  (fmt = [] \/ exists l f, literal C l f /\ fmt = [TkGr Paren l]) -> k <> u "generic_tuple" -> k <> u "generic_array" -> k <> u "generic_dictionary" ->
  impl_opg_model C S (TkId k :: fmt ++ COLON_TK :: t) = None.
Proof.
  intros Ht Hs Hf Hu Ha Hd. destruct (impl_opg_model C S _) as [it|] eqn:E; [exfalso|reflexivity]. apply impl_spec in E.
  destruct Hf as [->|(l & f & Hl & ->)]; cbn [app] in E; inversion E; subst; try congruence; try (now apply Hs); try (now apply Hu); try (now apply Ha); try (now apply Hd); inversion Hl.
Qed.
Lemma named_name C S ts it m n E : impl_opg_model C S ts = Some it -> ii_kind it = IkNamed m n -> type_t S = Some n /\ impl_name E (ii_kind it) [] = type_name E n /\
  impl_selects (ii_kind it) = false /\ forall gs cx, impl_schema E gs (ii_kind it) [] cx = Some (Ok (m, cx)).
Proof. intros H Hk. rewrite Hk. split; [|repeat split]. apply impl_spec in H. destruct H; cbn in Hk; try discriminate Hk; injection Hk as <- <-; assumption. Qed.
Lemma imports_matter C : exists ts it, impl_opg_model C opg_scope ts = Some it /\ impl_opg_model C bare_scope ts = None.
Proof. exists [tk_id "string"; TkGr Paren [tk_id "always_inline"]; tk_pu ":"; tk_id "Foo"]. eexists. split; vm_compute; reflexivity. Qed.
Lemma bare_forms C ts it : impl_opg_model C bare_scope ts = Some it <->
  impl_opg_model C opg_scope ts = Some it /\ ((exists n z, ii_kind it = IkWrap n z) \/ exists ns, ii_kind it = IkTuple ns).
Proof.
  split.
  - intros H. split; [|exact (bare_refuses _ _ _ H)]. exact (same_rest _ _ opg_scope _ _ H eq_refl eq_refl eq_refl).
  - intros [H Hk]. apply impl_spec in H. apply impl_spec. destruct H; cbn in *; try discriminate; try (now constructor); destruct Hk as [(? & ? & Hk)|(? & Hk)]; discriminate Hk.
Qed.
Lemma impl_unique C S ts a b : impl_form C S ts a -> impl_form C S ts b -> a = b.
Proof. intros Ha Hb. apply impl_spec in Ha, Hb. congruence. Qed.
Lemma lib_written_in C e : In e lib_impls -> as_written C e.
Proof. pose proof (lib_written C) as H. rewrite Forall_forall in H. apply H. Qed.
