(** Rust strings.

    A Rust [String]/[&str] is a sequence of Unicode scalar values encoded in UTF-8.
    We model it as the list of its scalar values.  UTF-8 preserves order, so Rust's
    byte-wise [Ord for str] is the lexicographic order on scalar values used here.
    Byte lengths matter only for slicing ([&s[..1]], [&s[1..]]); see [utf8_len]. *)
From Coq Require Export List NArith Bool Lia String Ascii.
From Coq Require Import ZifyBool ZifyN ZifyNat.
Export ListNotations.
Open Scope list_scope.
(* [String] exports its own [length], [append]...: keep the list ones. *)
Notation length := List.length.
Notation concat := List.concat.

Definition str := list N.

(** String literals of the Rust sources. *)
Definition u (s : string) : str := map N_of_ascii (list_ascii_of_string s).

Definition str_eq_dec : forall a b : str, {a = b} + {a <> b} := list_eq_dec N.eq_dec.

Fixpoint str_eqb (a b : str) : bool :=
  match a, b with
  | [], [] => true
  | x :: a', y :: b' => N.eqb x y && str_eqb a' b'
  | _, _ => false
  end.

Lemma str_eqb_eq a b : str_eqb a b = true <-> a = b.
Proof.
  revert b; induction a as [|x a IH]; intros [|y b]; cbn; try (split; congruence).
  rewrite andb_true_iff, N.eqb_eq, IH. split; [intros [-> ->]; auto | intros H; inversion H; auto].
Qed.

Lemma str_eqb_refl a : str_eqb a a = true.
Proof. now apply str_eqb_eq. Qed.

Lemma str_eqb_neq a b : str_eqb a b = false <-> a <> b.
Proof.
  destruct (str_eqb a b) eqn:E.
  - apply str_eqb_eq in E. split; congruence.
  - split; auto. intros _ H. apply str_eqb_eq in H. congruence.
Qed.

Lemma str_eqb_spec a b : reflect (a = b) (str_eqb a b).
Proof. destruct (str_eqb a b) eqn:E; constructor; [now apply str_eqb_eq | now apply str_eqb_neq]. Qed.

(** [Ord for str]. *)
Fixpoint str_cmp (a b : str) : comparison :=
  match a, b with
  | [], [] => Eq
  | [], _ :: _ => Lt
  | _ :: _, [] => Gt
  | x :: a', y :: b' =>
      match N.compare x y with
      | Eq => str_cmp a' b'
      | c => c
      end
  end.

Lemma str_cmp_eq a b : str_cmp a b = Eq <-> a = b.
Proof.
  revert b; induction a as [|x a IH]; intros [|y b]; cbn; try (split; congruence).
  destruct (N.compare x y) eqn:E.
  - apply N.compare_eq_iff in E as ->. rewrite IH. split; [intros ->; auto | intros H; inversion H; auto].
  - split; try congruence. intros H; inversion H; subst. rewrite N.compare_refl in E. congruence.
  - split; try congruence. intros H; inversion H; subst. rewrite N.compare_refl in E. congruence.
Qed.

Lemma str_cmp_antisym a b : str_cmp b a = CompOpp (str_cmp a b).
Proof.
  revert b; induction a as [|x a IH]; intros [|y b]; cbn; auto.
  rewrite (N.compare_antisym x y). destruct (N.compare x y); cbn; auto.
Qed.

Lemma str_cmp_trans a b c : str_cmp a b = Lt -> str_cmp b c = Lt -> str_cmp a c = Lt.
Proof.
  revert b c; induction a as [|x a IH]; intros [|y b] [|z c]; cbn; auto; try congruence.
  destruct (N.compare x y) eqn:E1; try congruence.
  - apply N.compare_eq_iff in E1 as ->. destruct (N.compare y z); auto. apply IH.
  - intros _. destruct (N.compare y z) eqn:E2; try congruence; intros H.
    + apply N.compare_eq_iff in E2 as ->. now rewrite E1.
    + apply N.compare_lt_iff in E1, E2.
      assert (N.compare x z = Lt) as -> by (apply N.compare_lt_iff; eapply N.lt_trans; eauto). auto.
Qed.

(** [char::to_ascii_lowercase], [char::to_ascii_uppercase] (std). *)
Definition is_ascii_upper (c : N) : bool := (65 <=? c)%N && (c <=? 90)%N.
Definition is_ascii_lower (c : N) : bool := (97 <=? c)%N && (c <=? 122)%N.
Definition is_ascii_digit (c : N) : bool := (48 <=? c)%N && (c <=? 57)%N.
Definition ch_lower (c : N) : N := if is_ascii_upper c then (c + 32)%N else c.
Definition ch_upper (c : N) : N := if is_ascii_lower c then (c - 32)%N else c.
Definition to_lower (s : str) : str := map ch_lower s.
Definition to_upper (s : str) : str := map ch_upper s.

(** [str::replace(from: char, to)] with a one-character replacement. *)
Definition replace_char (from to : N) (s : str) : str :=
  map (fun c => if N.eqb c from then to else c) s.

(** Number of bytes of a scalar value in UTF-8 ([char::len_utf8]). *)
Definition utf8_len (c : N) : nat :=
  if (c <? 128)%N then 1 else if (c <? 2048)%N then 2 else if (c <? 65536)%N then 3 else 4.

Definition c_underscore : N := 95.
Definition c_dash : N := 45.
Definition c_slash : N := 47.
Definition c_lbrace : N := 123.
Definition c_rbrace : N := 125.
Definition c_colon : N := 58.

Lemma ch_upper_lower_lower c : is_ascii_lower c = true -> ch_lower (ch_upper c) = c.
Proof.
  unfold ch_lower, ch_upper, is_ascii_lower, is_ascii_upper. intros H.
  rewrite H.
  destruct ((65 <=? c - 32)%N && (c - 32 <=? 90)%N) eqn:E; lia.
Qed.
