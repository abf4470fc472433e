(** Facts about the base vocabulary. *)
From Coq Require Import Reals List Bool Lra.
From Verif Require Import Base.
Import ListNotations.
Open Scope R_scope.

Lemma Reqb_spec x y : reflect (x = y) (Reqb x y).
Proof. unfold Reqb. destruct (Req_EM_T x y); constructor; auto. Qed.
Lemma Rltb_spec x y : reflect (x < y) (Rltb x y).
Proof. unfold Rltb. destruct (Rlt_dec x y); constructor; auto. Qed.
Lemma Rleb_spec x y : reflect (x <= y) (Rleb x y).
Proof. unfold Rleb. destruct (Rle_dec x y); constructor; auto. Qed.

Lemma Rltb_true x y : Rltb x y = true <-> x < y.
Proof. destruct (Rltb_spec x y); split; auto; discriminate. Qed.
Lemma Rltb_false x y : Rltb x y = false <-> y <= x.
Proof. destruct (Rltb_spec x y); split; intros; try discriminate; auto; lra. Qed.
Lemma Rleb_true x y : Rleb x y = true <-> x <= y.
Proof. destruct (Rleb_spec x y); split; auto; discriminate. Qed.
Lemma Rleb_false x y : Rleb x y = false <-> y < x.
Proof. destruct (Rleb_spec x y); split; intros; try discriminate; auto; lra. Qed.
Lemma Reqb_true x y : Reqb x y = true <-> x = y.
Proof. destruct (Reqb_spec x y); split; auto; discriminate. Qed.
Lemma Reqb_false x y : Reqb x y = false <-> x <> y.
Proof. destruct (Reqb_spec x y); split; intros; try discriminate; auto; contradiction. Qed.

(** Destructs the first boolean comparison found in the goal or hypotheses. *)
Ltac rcase :=
  match goal with
  | |- context [Reqb ?a ?b] => destruct (Reqb_spec a b)
  | |- context [Rltb ?a ?b] => destruct (Rltb_spec a b)
  | |- context [Rleb ?a ?b] => destruct (Rleb_spec a b)
  | H : context [Reqb ?a ?b] |- _ => destruct (Reqb_spec a b)
  | H : context [Rltb ?a ?b] |- _ => destruct (Rltb_spec a b)
  | H : context [Rleb ?a ?b] |- _ => destruct (Rleb_spec a b)
  end.

Lemma Rmax_cases a b : (a <= b /\ Rmax a b = b) \/ (b <= a /\ Rmax a b = a).
Proof. unfold Rmax. destruct (Rle_dec a b); [left|right]; split; auto; lra. Qed.
Lemma Rmin_cases a b : (a <= b /\ Rmin a b = a) \/ (b <= a /\ Rmin a b = b).
Proof. unfold Rmin. destruct (Rle_dec a b); [left|right]; split; auto; lra. Qed.

Ltac mmone a b f :=
  let E := fresh in
  destruct (f a b) as [[? E]|[? E]]; rewrite ?E in *; clear E.
Ltac mmcase :=
  match goal with
  | |- context [Rmax ?a ?b] => mmone a b Rmax_cases
  | |- context [Rmin ?a ?b] => mmone a b Rmin_cases
  | H : context [Rmax ?a ?b] |- _ => mmone a b Rmax_cases
  | H : context [Rmin ?a ?b] |- _ => mmone a b Rmin_cases
  end.
