(** An explicit [approx] overrides the global switch in every layer. *)
From Coq Require Import Reals List Bool ZArith String.
From Verif Require Import Base LogicM GeometryM OptimizeM PathM CandidatesM SceneM SpecApprox.
Import ListNotations.
Open Scope R_scope.
Local Notation length := List.length.

Lemma fold_left_ext {A B} (f h : A -> B -> A) l : (forall a b, f a b = h a b) ->
  forall a, fold_left f l a = fold_left h l a.
Proof. intro E. induction l as [|x l IH]; cbn; intro a; auto. rewrite E. apply IH. Qed.

Lemma honours_canon {A} (F : bool -> option bool -> A) :
  (forall g a, F g a = F false (Some (resolve g a))) -> honours F.
Proof. intro H. split; intros; rewrite H; [rewrite (H g')|rewrite (H g (Some g))]; reflexivity. Qed.

Section Canon.
  Variables (g : bool) (a : option bool).
  Let a' := Some (resolve g a).
  Lemma c_or x y : logical_or g x y a = logical_or false x y a'. Proof. reflexivity. Qed.
  Lemma c_and x y : logical_and g x y a = logical_and false x y a'. Proof. reflexivity. Qed.
  Lemma c_not x : logical_not g x a = logical_not false x a'. Proof. reflexivity. Qed.
  Lemma c_gt x y k : greater g x y a k = greater false x y a' k. Proof. reflexivity. Qed.
  Lemma c_ge x y k : greater_equal g x y a k = greater_equal false x y a' k. Proof. reflexivity. Qed.
  Lemma c_lt x y k : less g x y a k = less false x y a' k. Proof. reflexivity. Qed.
  Lemma c_le x y k : less_equal g x y a k = less_equal false x y a' k. Proof. reflexivity. Qed.
  Lemma c_all xs : logical_all g xs a = logical_all false xs a'. Proof. reflexivity. Qed.
  Lemma c_any xs : logical_any g xs a = logical_any false xs a'. Proof. reflexivity. Qed.
  Lemma c_is_true x tol : is_true g x tol a = is_true false x tol a'. Proof. reflexivity. Qed.
  Lemma c_is_false x tol : is_false g x tol a = is_false false x tol a'. Proof. reflexivity. Qed.
  Lemma c_tv : true_value g a = true_value false a'. Proof. reflexivity. Qed.
  Lemma c_fv : false_value g a = false_value false a'. Proof. reflexivity. Qed.
  Lemma c_seg P1 P2 P3 P4 tol k :
    segments_intersect g P1 P2 P3 P4 tol a k = segments_intersect false P1 P2 P3 P4 tol a' k.
  Proof. reflexivity. Qed.
  Lemma c_contains o ps k : obj_contains g o ps a k = obj_contains false o ps a' k.
  Proof. destruct o; reflexivity. Qed.
  Lemma c_intersects o r0 r1 patch k :
    obj_intersects g o r0 r1 patch a k = obj_intersects false o r0 r1 patch a' k.
  Proof. destruct o; reflexivity. Qed.
  Lemma c_on p os k : on_objects g p os a k = on_objects false p os a' k.
  Proof. reflexivity. Qed.
  Lemma c_inter p os cand patch k :
    intersects_with_objects g p os cand patch a k = intersects_with_objects false p os cand patch a' k.
  Proof. reflexivity. Qed.
  Lemma c_valid p os cand inter tol patch k :
    is_valid g p os cand inter tol patch a k = is_valid false p os cand inter tol patch a' k.
  Proof. reflexivity. Qed.

  Definition va' (va : validargs) := mkvalidargs (va_tol va) (va_patch va) a' (va_kw va).
  Lemma c_run P s cls va work : va_approx va = a -> forall key,
    run_paths P g s cls va work key = run_paths P false s cls (va' va) work key.
  Proof.
    intro E. induction work as [|[[tx rx] cand] tl IH]; intro key; cbn; auto.
    assert (X : one_path P g s cls va tx rx cand key = one_path P false s cls (va' va) tx rx cand key).
    { unfold one_path. destruct (get_interacting_objects s cand); cbn; auto.
      destruct key as [k|]; [destruct (rsplit P k 2) as [|? [|? ?]]|];
        (destruct (from_tx_objects_rx _ _ _ _ _ _); cbn; auto);
        rewrite E, c_valid; reflexivity. }
    rewrite X. destruct (one_path P false s cls (va' va) tx rx cand key) as [[it k']|]; auto.
    rewrite IH. reflexivity.
  Qed.
  Lemma c_all_paths P s cls ca va key : va_approx va = a ->
    all_paths P g s cls ca va key = all_paths P false s cls ca (va' va) key.
  Proof. intro E. unfold all_paths. apply c_run. exact E. Qed.
  Lemma c_filter items e : filter_valid g a items e = filter_valid false a' items e.
  Proof.
    induction items as [|it tl IH]; cbn [filter_valid]; auto.
    rewrite c_is_true. destruct (is_true _ _ _ _); auto. rewrite IH. reflexivity.
  Qed.
  Lemma c_all_valid_paths P s cls ca va key : va_approx va = a ->
    all_valid_paths P g s cls ca va key = all_valid_paths P false s cls ca (va' va) key.
  Proof.
    intro E. unfold all_valid_paths. rewrite (c_all_paths _ _ _ _ _ _ E), E, c_filter. reflexivity.
  Qed.
  Lemma c_acc P s cls ca va key f : va_approx va = a ->
    accumulate_over_paths P g s cls ca va key f = accumulate_over_paths P false s cls ca (va' va) key f.
  Proof. intro E. unfold accumulate_over_paths. rewrite (c_all_paths _ _ _ _ _ _ E). reflexivity. Qed.
  Lemma c_facc P s cls va f work tx rx : va_approx va = a ->
    facc P g s cls va f work tx rx = facc P false s cls (va' va) f work tx rx.
  Proof. intro E. destruct va as [tol patch ap kw]. cbn in E. rewrite E. reflexivity. Qed.
End Canon.

Lemma h_rx_grid P s cls ca tol patch kw key f gradop m X Y :
  honours (fun g a => accumulate_on_receivers_grid P g s cls ca (mkvalidargs tol patch a kw) key f gradop m X Y).
Proof. apply honours_canon. reflexivity. Qed.
Lemma h_tx_grid P s cls ca tol patch kw key f gradop m X Y :
  honours (fun g a => accumulate_on_transmitters_grid P g s cls ca (mkvalidargs tol patch a kw) key f gradop m X Y).
Proof. apply honours_canon. reflexivity. Qed.

Lemma honours_logic :
  (forall x y, honours (fun g a => logical_or g x y a)) /\
  (forall x y, honours (fun g a => logical_and g x y a)) /\
  (forall x, honours (fun g a => logical_not g x a)) /\
  (forall x y k, honours (fun g a => greater g x y a k)) /\
  (forall x y k, honours (fun g a => greater_equal g x y a k)) /\
  (forall x y k, honours (fun g a => less g x y a k)) /\
  (forall x y k, honours (fun g a => less_equal g x y a k)) /\
  (forall xs, honours (fun g a => logical_all g xs a)) /\
  (forall xs, honours (fun g a => logical_any g xs a)) /\
  (forall x tol, honours (fun g a => is_true g x tol a)) /\
  (forall x tol, honours (fun g a => is_false g x tol a)) /\
  honours true_value /\ honours false_value.
Proof. repeat split; intros; reflexivity. Qed.

Lemma honours_geometry :
  (forall P1 P2 P3 P4 tol k, honours (fun g a => segments_intersect g P1 P2 P3 P4 tol a k)) /\
  (forall o ps k, honours (fun g a => obj_contains g o ps a k)) /\
  (forall o r0 r1 patch k, honours (fun g a => obj_intersects g o r0 r1 patch a k)) /\
  (forall p os k, honours (fun g a => on_objects g p os a k)) /\
  (forall p os cand patch k, honours (fun g a => intersects_with_objects g p os cand patch a k)) /\
  (forall p os cand inter tol patch k, honours (fun g a => is_valid g p os cand inter tol patch a k)).
Proof.
  repeat match goal with |- _ /\ _ => split end; intros; apply honours_canon; intros.
  - apply c_seg.
  - apply c_contains.
  - apply c_intersects.
  - apply c_on.
  - apply c_inter.
  - apply c_valid.
Qed.

Lemma honours_scene P s cls ca tol patch kw key f :
  honours (fun g a => all_paths P g s cls ca (mkvalidargs tol patch a kw) key) /\
  honours (fun g a => all_valid_paths P g s cls ca (mkvalidargs tol patch a kw) key) /\
  honours (fun g a => accumulate_over_paths P g s cls ca (mkvalidargs tol patch a kw) key f) /\
  honours (fun g a => accumulate_over_paths_reduced P g s cls ca (mkvalidargs tol patch a kw) key f).
Proof.
  repeat match goal with |- _ /\ _ => split end; intros; apply honours_canon; intros g a.
  - apply (c_all_paths g a P s cls ca (mkvalidargs tol patch a kw) key eq_refl).
  - apply (c_all_valid_paths g a P s cls ca (mkvalidargs tol patch a kw) key eq_refl).
  - apply (c_acc g a P s cls ca (mkvalidargs tol patch a kw) key f eq_refl).
  - unfold accumulate_over_paths_reduced.
    rewrite (c_acc g a P s cls ca (mkvalidargs tol patch a kw) key f eq_refl). reflexivity.
Qed.
