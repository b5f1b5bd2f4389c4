(** What is said of variables some of which are moved. *)
From Verif Require Import Str BMap Expand ExpandType ExpandTypeSpec ExpandTypeFacts.

Definition avail (e : tframe) (v : str) : option tval := match tlookup (own v) e with Some (Has x) => Some x | _ => None end.
Definition move_all (l : list str) (e : tframe) : tframe := fold_left (fun e v => tassign (own v) Moved e) l e.
Definition is_text (x : tval) : Prop := match x with VText _ => True | _ => False end.

Lemma lookup_assign x y s e : tlookup x (tassign y s e) = if ident_eq_dec x y then match tlookup x e with Some _ => Some s | None => None end else tlookup x e.
Proof.
  induction e as [|[z t] e IH]; [now destruct (ident_eq_dec x y)|]. cbn [tassign tlookup].
  destruct (ident_eq_dec y z) as [->|Hyz]; cbn [tlookup].
  - destruct (ident_eq_dec x z); reflexivity.
  - destruct (ident_eq_dec x z) as [->|]; [|exact IH]. destruct (ident_eq_dec z y) as [->|]; [now destruct Hyz|reflexivity].
Qed.
Lemma avail_assign v w e : avail (tassign (own w) Moved e) v = if list_eq_dec N.eq_dec v w then None else avail e v.
Proof.
  unfold avail. rewrite lookup_assign. destruct (ident_eq_dec (own v) (own w)) as [E|E].
  - injection E as ->. destruct (list_eq_dec N.eq_dec w w) as [_|n]; [|now destruct n]. now destruct (tlookup (own w) e).
  - destruct (list_eq_dec N.eq_dec v w) as [->|]; [now destruct E|reflexivity].
Qed.
Lemma avail_moved l : forall e v, avail (move_all l e) v = if in_dec (list_eq_dec N.eq_dec) v l then None else avail e v.
Proof.
  induction l as [|w l IH]; intros e v; [reflexivity|]. change (move_all (w :: l) e) with (move_all l (tassign (own w) Moved e)). rewrite IH, avail_assign.
  destruct (in_dec (list_eq_dec N.eq_dec) v l) as [i|n], (in_dec (list_eq_dec N.eq_dec) v (w :: l)) as [j|k]; try reflexivity.
  - destruct k. now right.
  - destruct (list_eq_dec N.eq_dec v w) as [|Hne]; [reflexivity|]. destruct j as [<-|j]; [now destruct Hne|now destruct n].
  - destruct (list_eq_dec N.eq_dec v w) as [<-|]; [|reflexivity]. destruct k. now left.
Qed.
Lemma move_all_app l l' e : move_all (l ++ l') e = move_all l' (move_all l e).
Proof. unfold move_all. apply fold_left_app. Qed.
Lemma move_avail v e x e' : move (own v) e = Some (x, e') <-> avail e v = Some x /\ e' = tassign (own v) Moved e.
Proof.
  unfold move, avail. destruct (tlookup (own v) e) as [[y|]|]; split; try (intros H; discriminate); try (intros [H _]; discriminate).
  - intros [= <- <-]. now split.
  - now intros [[= <-] ->].
Qed.

Scheme means_mind := Minimality for means Sort Prop
  with means_properties_mind := Minimality for means_properties Sort Prop
  with means_value_mind := Minimality for means_value Sort Prop.
Combined Scheme means_ind' from means_mind, means_properties_mind, means_value_mind.
Definition moved_properties (l : list (str * bool * xvalue)) : list str := flat_map (fun e => moved_value (snd e)) l.

Lemma means_moved vars :
  (forall d d', means vars d d' -> forall v, In v (moved d) -> exists x, vars v = Some x /\ ~ is_text x) /\
  (forall l l', means_properties vars l l' -> forall v, In v (moved_properties l) -> exists x, vars v = Some x /\ ~ is_text x) /\
  (forall i i', means_value vars i i' -> forall v, In v (moved_value i) -> exists x, vars v = Some x /\ ~ is_text x).
Proof.
  apply means_ind'; cbn [moved moved_value]; try (intros; contradiction).
  - intros v m H w [<-|[]]. exists (VModel m). split; [exact H|exact (fun x => x)].
  - intros d v data H w [<-|[]]. exists (VData data). split; [exact H|exact (fun x => x)].
  - auto.
  - auto.
  - intros k r v v' l l' _ Hv _ Hl w Hw. apply in_app_or in Hw as [Hw|Hw]; [now apply Hv|now apply Hl].
  - auto.
Qed.
Lemma means_transfer vars vars' :
  (forall d d', means vars d d' -> (forall v x, vars v = Some x -> is_text x \/ In v (moved d) -> vars' v = Some x) -> means vars' d d') /\
  (forall l l', means_properties vars l l' -> (forall v x, vars v = Some x -> is_text x \/ In v (moved_properties l) -> vars' v = Some x) -> means_properties vars' l l') /\
  (forall i i', means_value vars i i' -> (forall v x, vars v = Some x -> is_text x \/ In v (moved_value i) -> vars' v = Some x) -> means_value vars' i i').
Proof.
  apply means_ind'; cbn [moved moved_value].
  - intros v m H Hv. constructor. apply Hv; [exact H|right; now left].
  - intros d v data H Hv. constructor. apply Hv; [exact H|right; now left].
  - intros; constructor.
  - intros; constructor.
  - intros; constructor.
  - intros; constructor.
  - intros d i i' _ IH Hv. constructor. auto.
  - intros d l l' _ IH Hv. constructor. auto.
  - intros; constructor.
  - intros k r v v' l l' _ IHv _ IHl Hv. constructor.
    + apply IHv. intros w x Hw [Ht|Hi]; apply Hv; auto. right. apply in_or_app. now left.
    + apply IHl. intros w x Hw [Ht|Hi]; apply Hv; auto. right. apply in_or_app. now right.
  - intros; constructor.
  - intros v s H Hv. constructor. apply Hv; [exact H|now left].
  - intros d d' _ IH Hv. constructor. auto.
Qed.

Lemma NoDup_app_iff' {A} (l l' : list A) : NoDup (l ++ l') <-> NoDup l /\ NoDup l' /\ forall x, In x l -> ~ In x l'.
Proof.
  induction l as [|a l IH]; cbn.
  - split; [intros H; repeat split; [constructor|assumption|tauto]|tauto].
  - rewrite !NoDup_cons_iff, in_app_iff, IH. split.
    + intros (Hn & H1 & H2 & H3). repeat split; auto. intros x [<-|Hx]; auto.
    + intros ((Hn & H1) & H2 & H3). repeat split; auto. intros [Hi|Hi]; [now apply Hn|]. apply (H3 a); auto.
Qed.

Definition says {A B} (say : tframe -> option (B * tframe)) (meaning : (str -> option tval) -> A -> B -> Prop) (d : A) (mv : list str) : Prop :=
  forall e b e', say e = Some (b, e') <-> meaning (avail e) d b /\ NoDup mv /\ e' = move_all mv e.
Lemma say_says : (forall d, says (say d) means d (moved d)) /\ forall v, says (say_value v) means_value v (moved_value v).
Proof.
  apply xdescribe_both; unfold says; intros; cbn [say say_value moved moved_value].
  - destruct (move (own v) e) as [[x e1]|] eqn:E.
    + apply move_avail in E as [E1 ->]. split.
      * destruct x; try discriminate. intros [= <- <-]. split; [now constructor|]. split; [|reflexivity]. constructor; [tauto|constructor].
      * intros (H & _ & ->). inversion H; subst. rewrite E1 in *. match goal with HH : Some x = Some _ |- _ => injection HH as -> end. reflexivity.
    + split; [discriminate|]. intros (H & _ & _). inversion H; subst. match goal with HH : avail e v = Some ?y |- _ =>
        rewrite (proj2 (move_avail v e y _) (conj HH eq_refl)) in E end. discriminate.
  - destruct (move (own v) e) as [[x e1]|] eqn:E.
    + apply move_avail in E as [E1 ->]. split.
      * destruct x; try discriminate. intros [= <- <-]. split; [now constructor|]. split; [|reflexivity]. constructor; [tauto|constructor].
      * intros (H & _ & ->). inversion H; subst. rewrite E1 in *. match goal with HH : Some x = Some _ |- _ => injection HH as -> end. reflexivity.
    + split; [discriminate|]. intros (H & _ & _). inversion H; subst. match goal with HH : avail e v = Some ?y |- _ =>
        rewrite (proj2 (move_avail v e y _) (conj HH eq_refl)) in E end. discriminate.
  - split; [intros [= <- <-]; repeat split; constructor|]. intros (H & _ & ->). now inversion H.
  - split; [intros [= <- <-]; repeat split; constructor|]. intros (H & _ & ->). now inversion H.
  - split; [intros [= <- <-]; repeat split; constructor|]. intros (H & _ & ->). now inversion H.
  - split; [intros [= <- <-]; repeat split; constructor|]. intros (H & _ & ->). now inversion H.
  - split.
    + destruct (say_value i e) as [[i' e1]|] eqn:E; [|discriminate]. intros [= <- <-]. apply H in E as (H1 & H2 & H3). split; [now constructor|auto].
    + intros (H1 & H2 & H3). inversion H1; subst. match goal with HH : means_value _ _ _ |- _ => rewrite (proj2 (H _ _ _) (conj HH (conj H2 eq_refl))) end. reflexivity.
  - assert (Hl : forall e l' e', say_properties say_value l e = Some (l', e') <->
      means_properties (avail e) l l' /\ NoDup (moved_properties l) /\ e' = move_all (moved_properties l) e).
    { clear - H. induction H as [|[[k r] v] l Hv _ IH]; intros e l' e'; cbn [say_properties moved_properties flat_map snd].
      { split; [intros [= <- <-]; repeat split; constructor|]. intros (H & _ & ->). now inversion H. }
      cbn [snd] in Hv. rewrite move_all_app, NoDup_app_iff'. fold (moved_properties l). split.
      - destruct (say_value v e) as [[v' e1]|] eqn:E1; [|discriminate]. destruct (say_properties say_value l e1) as [[l1 e2]|] eqn:E2; [|discriminate].
        intros [= <- <-]. apply Hv in E1 as (H1 & H2 & ->). apply IH in E2 as (H3 & H4 & ->). split.
        + constructor; [exact H1|]. refine (proj1 (proj2 (means_transfer _ _)) _ _ H3 _). intros w x Hw _. rewrite avail_moved in Hw.
          now destruct (in_dec (list_eq_dec N.eq_dec) w (moved_value v)).
        + split; [|reflexivity]. split; [exact H2|]. split; [exact H4|]. intros w Hw Hw'.
          destruct (proj1 (proj2 (means_moved _)) _ _ H3 w Hw') as (x & Hx & _). rewrite avail_moved in Hx. now destruct (in_dec (list_eq_dec N.eq_dec) w (moved_value v)).
      - intros (H & (H2 & H4 & H5) & ->). inversion H; subst. match goal with HH : means_value _ v _ |- _ => rename HH into H1 end.
        match goal with HH : means_properties _ l _ |- _ => rename HH into H3 end.
        rewrite (proj2 (Hv _ _ _) (conj H1 (conj H2 eq_refl))).
        assert (H6 : means_properties (avail (move_all (moved_value v) e)) l l'0).
        { refine (proj1 (proj2 (means_transfer _ _)) _ _ H3 _). intros w x Hw Hx. rewrite avail_moved.
          destruct (in_dec (list_eq_dec N.eq_dec) w (moved_value v)) as [i|]; [|exact Hw]. destruct (proj2 (proj2 (means_moved _)) _ _ H1 w i) as (y & Hy & Hn).
          destruct Hx as [Hx|Hx]; [|now destruct (H5 w i)]. congruence. }
        now rewrite (proj2 (IH _ _ _) (conj H6 (conj H4 eq_refl))). }
    split.
    + destruct (say_properties say_value l e) as [[l' e1]|] eqn:E; [|discriminate]. intros [= <- <-]. apply Hl in E as (H1 & H2 & H3). split; [now constructor|auto].
    + intros (H1 & H2 & H3). inversion H1; subst. match goal with HH : means_properties _ _ _ |- _ => rewrite (proj2 (Hl _ _ _) (conj HH (conj H2 eq_refl))) end. reflexivity.
  - split; [intros [= <- <-]; repeat split; constructor|]. intros (H & _ & ->). now inversion H.
  - unfold avail. split.
    + destruct (tlookup (own v) e) as [[[s| | | |]|]|] eqn:E; try discriminate. intros [= <- <-]. split; [constructor; now rewrite E|]. split; [constructor|reflexivity].
    + intros (H & _ & ->). inversion H; subst. destruct (tlookup (own v) e) as [[x|]|]; try discriminate.
      match goal with HH : Some x = Some _ |- _ => injection HH as -> end. reflexivity.
  - split.
    + destruct (say d e) as [[d' e1]|] eqn:E; [|discriminate]. intros [= <- <-]. apply H in E as (H1 & H2 & H3). split; [now constructor|auto].
    + intros (H1 & H2 & H3). inversion H1; subst. match goal with HH : means _ _ _ |- _ => rewrite (proj2 (H _ _ _) (conj HH (conj H2 eq_refl))) end. reflexivity.
Qed.

Lemma avail_caller l v : avail (caller_frame l) v = value_of l v.
Proof.
  unfold avail. induction l as [|[w x] l IH]; [reflexivity|]. cbn [caller_frame map fst snd tlookup value_of].
  destruct (ident_eq_dec (own v) (Id w [])) as [E|E].
  - injection E as ->. now rewrite str_eqb_refl.
  - destruct (str_eqb v w) eqn:Ev; [apply str_eqb_eq in Ev as ->; now destruct E|exact IH].
Qed.
Lemma means_ext vars vars' d d' : (forall v, vars v = vars' v) -> means vars d d' -> means vars' d d'.
Proof. intros H Hd. refine (proj1 (means_transfer _ _) _ _ Hd _). intros v x Hv _. now rewrite <- H. Qed.

Lemma type_runs mk l d m e : mk <> [] ->
  (run_type mk d (caller_frame l) = Some (m, e) <->
   exists d', means (value_of l) d d' /\ NoDup (moved d) /\ m = describe_type d' /\ e = move_all (moved d) (caller_frame l)).
Proof.
  intros Hm. unfold run_type. rewrite (proj1 code_runs d mk _ Hm). split.
  - destruct (say d (caller_frame l)) as [[d' e']|] eqn:E; [|discriminate]. intros [= <- <-]. apply (proj1 say_says) in E as (H1 & H2 & ->).
    exists d'. split; [|auto]. eapply means_ext, H1. intros v. apply avail_caller.
  - intros (d' & H1 & H2 & -> & ->). assert (H1' : means (avail (caller_frame l)) d d') by (eapply means_ext, H1; intros v; symmetry; apply avail_caller).
    now rewrite (proj2 (proj1 say_says d _ _ _) (conj H1' (conj H2 eq_refl))).
Qed.
Lemma type_result mk l d m : mk <> [] ->
  ((exists e, run_type mk d (caller_frame l) = Some (m, e)) <->
   exists d', means (value_of l) d d' /\ NoDup (moved d) /\ m = describe_type d').
Proof.
  intros Hm. split.
  - intros [e H]. apply (type_runs mk l d m e Hm) in H as (d' & H1 & H2 & H3 & _). eauto.
  - intros (d' & H1 & H2 & H3). eexists. apply (type_runs mk l d m _ Hm). exists d'. repeat split; eauto.
Qed.
Lemma type_variables mk l d m e : mk <> [] -> run_type mk d (caller_frame l) = Some (m, e) ->
  map fst e = map fst (caller_frame l) /\
  forall v, tlookup (Id v []) e = if in_dec (list_eq_dec N.eq_dec) v (moved d) then Some Moved else tlookup (Id v []) (caller_frame l).
Proof.
  intros Hm H. apply (type_runs mk l d m e Hm) in H as (d' & H1 & H2 & -> & ->). split.
  - generalize (caller_frame l). clear. induction (moved d) as [|w r IH]; intros e; [reflexivity|]. cbn. fold (move_all r). unfold move_all in IH. rewrite IH. clear.
    induction e as [|[y s] e IH]; [reflexivity|]. cbn [tassign]. destruct (ident_eq_dec (own w) y); cbn [map fst]; congruence.
  - intros v. assert (Hin : forall w, In w (moved d) -> tlookup (own w) (caller_frame l) <> None).
    { intros w Hw Hn. destruct (proj1 (means_moved _) _ _ H1 w Hw) as (x & Hx & _). rewrite <- avail_caller in Hx. unfold avail in Hx. now rewrite Hn in Hx. }
    clear H1 H2. revert Hin. generalize (caller_frame l). induction (moved d) as [|w r IH]; intros e Hin; [reflexivity|].
    change (move_all (w :: r) e) with (move_all r (tassign (own w) Moved e)). rewrite IH.
    + rewrite lookup_assign. change (Id v []) with (own v).
      destruct (in_dec (list_eq_dec N.eq_dec) v r) as [i|n], (in_dec (list_eq_dec N.eq_dec) v (w :: r)) as [j|k]; try reflexivity.
      * destruct k. now right.
      * destruct (ident_eq_dec (own v) (own w)) as [E|E].
        -- injection E as ->. destruct (tlookup (own w) e) eqn:Ew; [reflexivity|]. now destruct (Hin w (in_eq _ _)).
        -- destruct j as [<-|j]; [now destruct E|now destruct n].
      * destruct (ident_eq_dec (own v) (own w)) as [E|E]; [|reflexivity]. injection E as ->. destruct k. now left.
    + intros x Hx. rewrite lookup_assign. destruct (ident_eq_dec (own x) (own w)) as [E|E].
      * injection E as ->. specialize (Hin w (in_eq _ _)). now destruct (tlookup (own w) e).
      * apply Hin. now right.
Qed.
