(** [std::collections::BTreeMap] as a key-sorted association list.

    Only the observable behaviour used by opg is modelled: [insert] (replaces),
    [get], [contains_key], [entry(..)] in its Vacant/Occupied forms, and iteration in
    ascending key order. *)
From Verif Require Import Str.

Class Ord (K : Type) := {
  kcmp : K -> K -> comparison;
  kcmp_eq : forall a b, kcmp a b = Eq <-> a = b;
  kcmp_antisym : forall a b, kcmp b a = CompOpp (kcmp a b);
  kcmp_trans : forall a b c, kcmp a b = Lt -> kcmp b c = Lt -> kcmp a c = Lt
}.

#[global] Arguments kcmp {K Ord} _ _ : simpl never.

#[global] Instance str_Ord : Ord str := {
  kcmp := str_cmp;
  kcmp_eq := str_cmp_eq;
  kcmp_antisym := str_cmp_antisym;
  kcmp_trans := str_cmp_trans
}.

#[global] Instance N_Ord : Ord N.
Proof.
  refine {| kcmp := N.compare |}.
  - intros a b. apply N.compare_eq_iff.
  - intros a b. apply N.compare_antisym.
  - intros a b c H1 H2. rewrite N.compare_lt_iff in *. eapply N.lt_trans; eauto.
Defined.

Definition bmap (K V : Type) := list (K * V).

Section Ops.
  Context {K V : Type} `{Ord K}.

  (** [BTreeMap::get] *)
  Fixpoint bm_get (k : K) (m : bmap K V) : option V :=
    match m with
    | [] => None
    | (k', v) :: m' => match kcmp k k' with Eq => Some v | _ => bm_get k m' end
    end.

  (** [BTreeMap::contains_key] *)
  Definition bm_mem (k : K) (m : bmap K V) : bool :=
    match bm_get k m with Some _ => true | None => false end.

  (** [BTreeMap::insert] *)
  Fixpoint bm_insert (k : K) (v : V) (m : bmap K V) : bmap K V :=
    match m with
    | [] => [(k, v)]
    | (k', v') :: m' =>
        match kcmp k k' with
        | Lt => (k, v) :: m
        | Eq => (k, v) :: m'
        | Gt => (k', v') :: bm_insert k v m'
        end
    end.

  Definition bm_keys (m : bmap K V) : list K := map fst m.

  (** Keys strictly ascending: what every [BTreeMap] value satisfies. *)
  Inductive bm_sorted : bmap K V -> Prop :=
  | bms_nil : bm_sorted []
  | bms_cons k v m : (forall k', In k' (bm_keys m) -> kcmp k k' = Lt) -> bm_sorted m -> bm_sorted ((k, v) :: m).

  Lemma kcmp_refl k : kcmp k k = Eq.
  Proof. now apply kcmp_eq. Qed.

  Lemma kcmp_lt_irrefl k : kcmp k k <> Lt.
  Proof. rewrite kcmp_refl. congruence. Qed.

  Lemma kcmp_lt_asym a b : kcmp a b = Lt -> kcmp b a = Lt -> False.
  Proof. intros H1 H2. apply (kcmp_lt_irrefl a). eapply kcmp_trans; eauto. Qed.

  Lemma kcmp_gt a b : kcmp a b = Gt -> kcmp b a = Lt.
  Proof. intros E. rewrite (kcmp_antisym a b), E. reflexivity. Qed.

  Lemma bm_get_insert_eq k v m : bm_get k (bm_insert k v m) = Some v.
  Proof.
    induction m as [|[k' v'] m IH]; cbn.
    - now rewrite kcmp_refl.
    - destruct (kcmp k k') eqn:E; cbn; rewrite ?kcmp_refl; auto. now rewrite E.
  Qed.

  Lemma bm_get_insert_neq k k0 v m : k0 <> k -> bm_get k0 (bm_insert k v m) = bm_get k0 m.
  Proof.
    intros Hne. induction m as [|[k' v'] m IH]; cbn.
    - destruct (kcmp k0 k) eqn:E; auto. apply kcmp_eq in E. congruence.
    - destruct (kcmp k k') eqn:E; cbn.
      + apply kcmp_eq in E as ->. destruct (kcmp k0 k') eqn:E'; auto. apply kcmp_eq in E'. congruence.
      + destruct (kcmp k0 k) eqn:E'; auto. apply kcmp_eq in E'. congruence.
      + now rewrite IH.
  Qed.

  Lemma bm_get_In k v m : bm_get k m = Some v -> In (k, v) m.
  Proof.
    induction m as [|[k' v'] m IH]; cbn; try congruence.
    destruct (kcmp k k') eqn:E.
    - apply kcmp_eq in E as ->. intros [= ->]. now left.
    - auto.
    - auto.
  Qed.

  Lemma bm_get_None k m : bm_get k m = None <-> ~ In k (bm_keys m).
  Proof.
    induction m as [|[k' v'] m IH]; cbn.
    - tauto.
    - destruct (kcmp k k') eqn:E.
      + apply kcmp_eq in E as ->. split; [congruence | intros X; exfalso; auto].
      + rewrite IH. assert (k' <> k) by (intros ->; rewrite kcmp_refl in E; congruence). tauto.
      + rewrite IH. assert (k' <> k) by (intros ->; rewrite kcmp_refl in E; congruence). tauto.
  Qed.

  Lemma bm_get_Some_key k m : (exists v, bm_get k m = Some v) <-> In k (bm_keys m).
  Proof.
    destruct (bm_get k m) eqn:E.
    - split; intros _; [|eauto]. apply bm_get_In in E. apply (in_map fst) in E. exact E.
    - apply bm_get_None in E. split; [intros [v Hv]; congruence | tauto].
  Qed.

  Lemma bm_mem_true k m : bm_mem k m = true <-> In k (bm_keys m).
  Proof.
    rewrite <- bm_get_Some_key. unfold bm_mem. destruct (bm_get k m).
    - split; eauto.
    - split; [congruence | intros [v Hv]; congruence].
  Qed.

  Lemma bm_mem_false k m : bm_mem k m = false <-> ~ In k (bm_keys m).
  Proof. rewrite <- bm_mem_true. destruct (bm_mem k m); split; congruence. Qed.

  Lemma bm_keys_insert k v m k0 : In k0 (bm_keys (bm_insert k v m)) <-> k0 = k \/ In k0 (bm_keys m).
  Proof.
    induction m as [|[k' v'] m IH]; cbn.
    - split; intros [?|?]; auto; contradiction.
    - destruct (kcmp k k') eqn:E; cbn.
      + apply kcmp_eq in E as ->. intuition congruence.
      + intuition congruence.
      + rewrite IH. intuition congruence.
  Qed.

  Lemma bm_insert_sorted k v m : bm_sorted m -> bm_sorted (bm_insert k v m).
  Proof.
    induction 1 as [|k' v' m Hlt Hs IH]; cbn.
    - constructor; [intros ? []|constructor].
    - destruct (kcmp k k') eqn:E.
      + apply kcmp_eq in E as ->. constructor; auto.
      + constructor; [|constructor; auto].
        intros k0 [<-|Hin]; auto. eapply kcmp_trans; eauto.
      + constructor; auto. intros k0 Hin. apply bm_keys_insert in Hin as [->|Hin]; auto.
        now apply kcmp_gt.
  Qed.

  Lemma bm_sorted_In_get k v m : bm_sorted m -> In (k, v) m -> bm_get k m = Some v.
  Proof.
    induction 1 as [|k' v' m Hlt Hs IH]; cbn; [tauto|].
    intros [E|Hin].
    - injection E as -> ->. now rewrite kcmp_refl.
    - destruct (kcmp k k') eqn:E; auto.
      apply kcmp_eq in E as ->. exfalso. apply (kcmp_lt_irrefl k'), Hlt.
      apply (in_map fst) in Hin. exact Hin.
  Qed.

  (** Sorted maps with the same lookups are equal: iteration order carries no information. *)
  Lemma bm_ext m1 m2 :
    bm_sorted m1 -> bm_sorted m2 -> (forall k, bm_get k m1 = bm_get k m2) -> m1 = m2.
  Proof.
    intros H1. revert m2. induction H1 as [|k v m Hlt Hs IH]; intros m2 H2 Hext.
    - destruct m2 as [|[k v] m2]; auto. specialize (Hext k). cbn in Hext.
      rewrite kcmp_refl in Hext. congruence.
    - destruct H2 as [|k2 v2 m2 Hlt2 Hs2].
      + specialize (Hext k). cbn in Hext. rewrite kcmp_refl in Hext. congruence.
      + assert (k = k2) as <-.
        { destruct (kcmp k k2) eqn:E.
          - now apply kcmp_eq.
          - exfalso. pose proof (Hext k) as Hk. cbn in Hk. rewrite kcmp_refl, E in Hk.
            symmetry in Hk. apply bm_get_In, (in_map fst) in Hk. cbn in Hk. apply Hlt2 in Hk.
            apply (kcmp_lt_irrefl k). eapply kcmp_trans; eauto.
          - exfalso. apply kcmp_gt in E. pose proof (Hext k2) as Hk. cbn in Hk. rewrite kcmp_refl, E in Hk.
            apply bm_get_In, (in_map fst) in Hk. cbn in Hk. apply Hlt in Hk.
            apply (kcmp_lt_irrefl k). eapply kcmp_trans; eauto. }
        assert (v = v2) as <-.
        { pose proof (Hext k) as Hk. cbn in Hk. rewrite kcmp_refl in Hk. congruence. }
        f_equal. apply IH; auto. intros k0. pose proof (Hext k0) as Hk. cbn in Hk.
        destruct (kcmp k0 k) eqn:E; auto.
        apply kcmp_eq in E as ->.
        transitivity (@None V); [|symmetry]; apply bm_get_None; intros Hin.
        * apply Hlt in Hin. now apply kcmp_lt_irrefl in Hin.
        * apply Hlt2 in Hin. now apply kcmp_lt_irrefl in Hin.
  Qed.

  Lemma bm_sorted_NoDup m : bm_sorted m -> NoDup (bm_keys m).
  Proof.
    induction 1 as [|k v m Hlt Hs IH]; cbn; constructor; auto.
    intros Hin. apply Hlt in Hin. now apply kcmp_lt_irrefl in Hin.
  Qed.

  (** Entries after [insert]: the new one, and the old ones of other keys. *)
  Lemma bm_insert_In k v m k0 v0 :
    In (k0, v0) (bm_insert k v m) -> (k0 = k /\ v0 = v) \/ In (k0, v0) m.
  Proof.
    induction m as [|[k' v'] m IH]; cbn.
    - intros [E|[]]. inversion E; auto.
    - destruct (kcmp k k') eqn:E; cbn.
      + intros [E'|Hin]; [inversion E'; auto|auto].
      + intros [E'|Hin]; [inversion E'; auto|auto].
      + intros [E'|Hin]; [auto|]. destruct (IH Hin); auto.
  Qed.

  Lemma bm_insert_nonempty k v m : bm_insert k v m <> [].
  Proof. destruct m as [|[k' v'] m]; cbn; [congruence|]. destruct (kcmp k k'); congruence. Qed.
End Ops.

Arguments bm_sorted {K V _} _.

(** A decidable version of [bm_sorted]. *)
Fixpoint bm_sortedb {K V} `{Ord K} (m : bmap K V) : bool :=
  match m with
  | [] => true
  | (k, _) :: m' =>
      match m' with
      | [] => true
      | (k', _) :: _ => match kcmp k k' with Lt => true | _ => false end
      end && bm_sortedb m'
  end.

Lemma bm_sortedb_true {K V} `{Ord K} (m : bmap K V) : bm_sortedb m = true <-> bm_sorted m.
Proof.
  induction m as [|[k v] m IH]; cbn.
  - split; auto. constructor.
  - rewrite andb_true_iff, IH. split.
    + intros [Hh Hs]. constructor; auto. destruct m as [|[k2 v2] m]; [intros ? []|].
      destruct (kcmp k k2) eqn:E; try congruence.
      intros k' [<-|Hin]; auto. inversion Hs; subst. eapply kcmp_trans; eauto.
    + intros Hs; inversion Hs; subst. split; auto. destruct m as [|[k2 v2] m]; auto.
      rewrite H2; auto. now left.
Qed.
