(** Facts about serialisation: values, paths, induction principles. *)
From Coq Require Import Permutation.
From Verif Require Import SerSpec SchemaFacts.

(** ** Paths *)
Lemma split_slash_app a s : ~ In SLASH a -> split_slash (a ++ s) = let (x, l) := split_slash s in (a ++ x, l).
Proof.
  induction a as [|c a IH]; cbn [app split_slash]; intros Ha.
  - now destruct (split_slash s).
  - rewrite IH by (intros H; apply Ha; now right). destruct (split_slash s) as [x l].
    destruct (N.eqb_spec c SLASH) as [->|_]; [|reflexivity]. exfalso. apply Ha. now left.
Qed.
Definition element_text (e : path_element) : str := match e with PePath s => s | PeParameter s => u "{" ++ s ++ u "}" end.
Lemma element_no_slash e : match e with PePath s | PeParameter s => plain s end -> ~ In SLASH (element_text e).
Proof.
  destruct e as [s|s]; intros (H & _ & _); cbn [element_text]; [exact H|].
  rewrite !in_app_iff. intros [Hi|[Hi|Hi]]; [|now apply H|]; vm_compute in Hi; destruct Hi as [Hi|[]]; discriminate.
Qed.
Lemma render_cons e p : render_path (e :: p) = SLASH :: element_text e ++ render_path p.
Proof. reflexivity. Qed.
Lemma split_render p : plain_path p -> split_slash (render_path p) = ([], map element_text p).
Proof.
  induction p as [|e p IH]; intros H; [reflexivity|].
  rewrite render_cons. cbn [split_slash]. rewrite split_slash_app by (apply element_no_slash, H; now left).
  rewrite IH by (intros e' He'; apply H; now right).
  rewrite N.eqb_refl, app_nil_r. reflexivity.
Qed.
Lemma parse_element_text e : match e with PePath s | PeParameter s => plain s end -> parse_element (element_text e) = e.
Proof.
  destruct e as [s|s]; intros (_ & H & _); cbn [element_text].
  - destruct s as [|c s]; [reflexivity|]. cbn [parse_element].
    destruct (N.eqb_spec c LBRACE) as [->|_]; [exfalso; apply H; now left|reflexivity].
  - change (u "{" ++ s ++ u "}") with (LBRACE :: s ++ [RBRACE]). cbn [parse_element]. rewrite N.eqb_refl.
    now rewrite removelast_last.
Qed.
Lemma parse_render p : plain_path p -> parse_path (render_path p) = p.
Proof.
  intros H. unfold parse_path. rewrite split_render by exact H. cbn [snd]. rewrite map_map.
  induction p as [|e p IH]; [reflexivity|]. cbn [map]. rewrite parse_element_text by (apply H; now left).
  f_equal. apply IH. intros e' He'. apply H. now right.
Qed.
Lemma render_inj p p' : plain_path p -> plain_path p' -> render_path p = render_path p' -> p = p'.
Proof. intros H H' E. rewrite <- (parse_render p H), <- (parse_render p' H'). now f_equal. Qed.

(** ** Induction *)
Definition children_of (m : model) : list model_ref :=
  match m with
  | Model _ (OneOf l) | Model _ (AllOf l) | Model _ (AnyOf l) => l
  | Model _ (Single (MType _ (TdArray r))) => [r]
  | Model _ (Single (MType _ (TdObject (MObject p a _)))) => map snd p ++ match a with Some r => [r] | None => [] end
  | _ => []
  end.
Lemma child_iff r m : child r m <-> In r (children_of m).
Proof.
  split.
  - intros H. destruct H; cbn; auto; rewrite in_app_iff.
    + left. apply in_map_iff. now exists (k, r).
    + right. now left.
  - destruct m as [d [[n [?|?|?| |i|[p a q]]]|l|l|l]]; cbn; try tauto; try (intros H; now constructor).
    + intros [->|[]]. constructor.
    + rewrite in_app_iff, in_map_iff. intros [([k r'] & <- & H)|H]; [now apply ch_prop with k|].
      destruct a as [r'|]; [|destruct H]. destruct H as [->|[]]. constructor.
Qed.

Section ModelInd.
  Variable P : model -> Prop.
  Hypothesis H : forall m, (forall m', child (Inline m') m -> P m') -> P m.
  Definition Pr (r : model_ref) : Prop := match r with Inline m => P m | _ => True end.
  Lemma Pr_children m : Forall Pr (children_of m) -> P m.
  Proof. rewrite Forall_forall. intros Hf. apply H. intros m' Hc. apply child_iff in Hc. exact (Hf _ Hc). Qed.

  Fixpoint model_ind' (m : model) : P m :=
    Pr_children m
      (match m return Forall Pr (children_of m) with
       | Model d data =>
         let go := fix go (l : list model_ref) : Forall Pr l :=
           match l with [] => Forall_nil _ | r :: l' => Forall_cons r (ref_ind' r) (go l') end in
         match data return Forall Pr (children_of (Model d data)) with
         | OneOf l => go l
         | AllOf l => go l
         | AnyOf l => go l
         | Single (MType n td) =>
             match td return Forall Pr (children_of (Model d (Single (MType n td)))) with
             | TdArray r => Forall_cons r (ref_ind' r) (Forall_nil _)
             | TdObject (MObject p a q) =>
                 proj2 (Forall_app Pr (map snd p) _)
                   (conj ((fix gop (l : bmap str model_ref) : Forall Pr (map snd l) :=
                             match l return Forall Pr (map snd l) with
                             | [] => Forall_nil _
                             | e :: l' => Forall_cons (snd e) (ref_ind' (snd e)) (gop l')
                             end) p)
                         (match a return Forall Pr (match a with Some r => [r] | None => [] end) with
                          | Some r => Forall_cons r (ref_ind' r) (Forall_nil _)
                          | None => Forall_nil _
                          end))
             | _ => Forall_nil _
             end
         end
       end)
  with ref_ind' (r : model_ref) : Pr r :=
    match r with Inline m => model_ind' m | _ => I end.
End ModelInd.

Section CallbackInd.
  Variable P : callback -> Prop.
  Hypothesis H : forall c, (forall p v m o k c', In (p, v) (cb_paths c) -> In (m, o) (pv_operations v) -> In (k, c') (op_callbacks o) -> P c') -> P c.
  Definition Po (o : operation) : Prop := Forall (fun e => P (snd e)) (op_callbacks o).
  Definition Pv (v : path_value) : Prop := Forall (fun e => Po (snd e)) (pv_operations v).
  Lemma P_paths c : Forall (fun e => Pv (snd e)) (cb_paths c) -> P c.
  Proof.
    intros Hf. apply H. intros p v m o k c' H1 H2 H3.
    rewrite Forall_forall in Hf. specialize (Hf _ H1). unfold Pv in Hf. rewrite Forall_forall in Hf. specialize (Hf _ H2).
    unfold Po in Hf. rewrite Forall_forall in Hf. exact (Hf _ H3).
  Qed.
  Fixpoint callback_ind' (c : callback) : P c :=
    P_paths c
      (match c return Forall (fun e => Pv (snd e)) (cb_paths c) with
       | Callback l =>
         (fix go (l : list (path * path_value)) : Forall (fun e => Pv (snd e)) l :=
            match l with
            | [] => Forall_nil _
            | e :: l' =>
                Forall_cons (P := fun e => Pv (snd e)) e
                  ((fix goo (l : bmap http_method operation) : Forall (fun e => Po (snd e)) l :=
                      match l with
                      | [] => Forall_nil _
                      | e :: l' =>
                          Forall_cons (P := fun e => Po (snd e)) e
                            ((fix goc (l : bmap str callback) : Forall (fun e => P (snd e)) l :=
                                match l with
                                | [] => Forall_nil _
                                | e :: l' => Forall_cons (P := fun e => P (snd e)) e (callback_ind' (snd e)) (goc l')
                                end) (op_callbacks (snd e)))
                            (goo l')
                      end) (pv_operations (snd e)))
                  (go l')
            end) l
       end).
End CallbackInd.
