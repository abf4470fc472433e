(** Proofs about scaling a whole scene. *)
From Coq Require Import Reals List Bool ZArith String Lia Lra Psatz FunctionalExtensionality.
From Verif Require Import Base BaseP LogicM GeometryM SpecGeometry VecP OptimizeM PathM CandidatesM SceneM SpecScene SpecRun
  UtilsM SpecPower SpecMotion MotionP MotionSceneP.
Import ListNotations.
Open Scope R_scope.
Local Notation length := List.length.

Lemma dist_scale k p q : 0 <= k -> dist (vscale k p) (vscale k q) = k * dist p q.
Proof.
  intro K. unfold dist, vscale. cbn [fst snd].
  replace ((k * fst p - k * fst q) ^ 2 + (k * snd p - k * snd q) ^ 2) with ((k * k) * ((fst p - fst q) ^ 2 + (snd p - snd q) ^ 2)) by ring.
  rewrite sqrt_mult_alt by nra. rewrite sqrt_square by lra. reflexivity.
Qed.
Lemma similarity_split k f : similarity k f -> exists h, isometry h /\ (direct_similarity k f -> direct h) /\ f = (fun q => vscale k (h q)).
Proof.
  intros [K S]. exists (fun q => vscale (/ k) (f q)). assert (IK : 0 < / k) by (apply Rinv_0_lt_compat; auto).
  assert (I : isometry (fun q => vscale (/ k) (f q))).
  { intros p q. rewrite dist_scale, S by lra. field. lra. }
  split; auto. split.
  - intros [_ O]. split; auto. intros a b c. specialize (O a b c). unfold orientation, vscale in *. cbn [fst snd] in *.
    match goal with |- _ = ?r => replace r with (/ k * / k * (k * k * r)) by (field; lra) end. rewrite <- O. ring.
  - extensionality q. unfold vscale. cbn [fst snd]. apply vec_eq; cbn; field; lra.
Qed.
Lemma similarity_geo k f : similarity k f -> geo f.
Proof.
  intro S. destruct (similarity_split k f S) as (h & I & _ & ->). apply geo_comp; [apply scale_geo, S|apply iso_geo, I].
Qed.
Lemma similarity_ris k f : direct_similarity k f -> geo_ris f.
Proof.
  intro S. destruct (similarity_split k f (proj1 S)) as (h & I & D & ->). apply ris_comp; [apply scale_geo, S|apply direct_ris, D, S].
Qed.
Lemma scaled_suitable k f os : suits_scaled k f os -> suitable f os.
Proof. intros [S [D|N]]; split; eauto using similarity_geo, similarity_ris. Qed.
Lemma unitless_firm cls f : unitless cls -> firm cls f.
Proof. destruct cls; cbn; tauto. Qed.
Lemma similarity_length k f pts : similarity k f -> path_length 0 (map f pts) = k * path_length 0 pts.
Proof.
  intro S. destruct (similarity_split k f S) as (h & I & _ & ->). rewrite <- (map_map h (vscale k)).
  pose proof (sc_length k (proj1 S) 0 (map h pts)) as E. rewrite Rmult_0_r in E. rewrite E. f_equal.
  apply length_keeps; [auto|left; auto].
Qed.

(** ** Powers *)
Lemma fdiv_scale c a b : 0 < c -> fdiv a (c * b) = xmul (Fin (/ c)) (fdiv a b).
Proof.
  intro C. assert (IC : 0 < / c) by (apply Rinv_0_lt_compat; auto). unfold fdiv. rewrite sc_zero by auto. unfold Reqb, Rltb.
  destruct (Req_EM_T b 0) as [B|B].
  - destruct (Req_EM_T a 0); [reflexivity|]. destruct (Rlt_dec 0 a); cbn [xmul]; unfold inf_times, Reqb, Rltb;
      destruct (Req_EM_T (/ c) 0); try lra; destruct (Rlt_dec 0 (/ c)); try lra; reflexivity.
  - cbn [xmul]. f_equal. field. split; lra.
Qed.
Lemma power_scale k f r_coef height tx rx p os : similarity k f ->
  power 0 r_coef (k * height) (f tx) (f rx) (move_path f p) (map (move_object f) os) =
  xmul (Fin (/ (k * k))) (power 0 r_coef height tx rx p os).
Proof.
  intros S. unfold power, received_power, Path_length. cbn [xys move_path]. rewrite (similarity_length k) by auto. rewrite map_length.
  cbn zeta. rewrite <- fdiv_scale by (destruct S; nra). f_equal. ring.
Qed.

(** ** Accumulation is linear *)
Definition times (c : R) (r : string * string * xreal) : string * string * xreal :=
  (fst r, xmul (Fin c) (snd r)).
Lemma xmul_add c x y : 0 < c -> xmul (Fin c) (xadd x y) = xadd (xmul (Fin c) x) (xmul (Fin c) y).
Proof.
  intro C. assert (E' : forall s, inf_times s c = if s then PInf else NInf).
  { intro s. unfold inf_times, Reqb, Rltb. destruct (Req_EM_T c 0); [lra|]. destruct (Rlt_dec 0 c); [|lra]. destruct s; reflexivity. }
  destruct x, y; cbn [xadd xmul]; rewrite ?E'; cbn [xadd]; try reflexivity. f_equal. ring.
Qed.
Lemma xmul_swap c v x : 0 < c -> xmul (Fin c) (xmul v x) = xmul v (xmul (Fin c) x).
Proof.
  intro C. assert (E : forall s r, xmul (Fin c) (inf_times s r) = inf_times s r).
  { intros s r. unfold inf_times, Reqb, Rltb. destruct (Req_EM_T r 0); [reflexivity|].
    destruct (Rlt_dec 0 r), s; cbn [xmul]; unfold inf_times, Reqb, Rltb; destruct (Req_EM_T c 0); try lra; destruct (Rlt_dec 0 c); try lra; reflexivity. }
  assert (E' : forall s, inf_times s c = if s then PInf else NInf).
  { intro s. unfold inf_times, Reqb, Rltb. destruct (Req_EM_T c 0); [lra|]. destruct (Rlt_dec 0 c); [|lra]. destruct s; reflexivity. }
  assert (M : forall s r, inf_times s (c * r) = inf_times s r).
  { intros s r. unfold inf_times, Reqb, Rltb. destruct (Req_EM_T r 0) as [->|N].
    - rewrite Rmult_0_r. destruct (Req_EM_T 0 0); [reflexivity|lra].
    - destruct (Req_EM_T (c * r) 0) as [Z|Z]; [apply Rmult_integral in Z; destruct Z; lra|].
      destruct (Rlt_dec 0 r), (Rlt_dec 0 (c * r)); try reflexivity; exfalso; nra. }
  destruct v, x; cbn [xmul]; rewrite ?E, ?E'; cbn [xmul]; rewrite ?M, ?E'; cbn [xmul]; rewrite ?M, ?E'; try reflexivity.
  all: try (unfold inf_times; destruct (Reqb r 0), (Rltb 0 r); reflexivity). f_equal. ring.
Qed.
Lemma acc_group_times s f c gr : 0 < c ->
  acc_group s (fun tx rx p os => xmul (Fin c) (f tx rx p os)) gr = rbind (acc_group s f gr) (fun r => Ok (times c r)).
Proof.
  intro C. destruct gr as [|it gr]; [reflexivity|]. unfold acc_group.
  destruct (pd_get (transmitters s) (it_tx it)) as [tx|]; cbn [rbind]; [|reflexivity].
  destruct (pd_get (receivers s) (it_rx it)) as [rx|]; cbn [rbind]; [|reflexivity].
  set (F := fun acc it0 => _). set (G := fun acc it0 => rbind acc _).
  assert (H : forall l a, fold_left F l (rbind a (fun x => Ok (xmul (Fin c) x))) = rbind (fold_left G l a) (fun x => Ok (xmul (Fin c) x))).
  { induction l as [|i l IH]; intro a; [reflexivity|]. cbn [fold_left]. rewrite <- IH. f_equal. unfold F, G.
    destruct a as [a|]; cbn [rbind]; [|reflexivity]. destruct (get_interacting_objects s (it_cand i)); cbn [rbind]; [|reflexivity].
    rewrite xmul_add, xmul_swap by auto. reflexivity. }
  specialize (H (it :: gr) (Ok (Fin 0))). cbn [rbind xmul] in H. rewrite Rmult_0_r in H. rewrite H.
  destruct (fold_left G (it :: gr) (Ok (Fin 0))); reflexivity.
Qed.
Lemma acc_groups_times s f c grs e : 0 < c ->
  acc_groups s (fun tx rx p os => xmul (Fin c) (f tx rx p os)) grs e =
  mkgen (map (times c) (yielded (acc_groups s f grs e))) (raised (acc_groups s f grs e)).
Proof.
  intro C. induction grs as [|gr grs IH]; [reflexivity|]. cbn [acc_groups]. rewrite acc_group_times, IH by auto.
  destruct (acc_group s f gr); reflexivity.
Qed.
Lemma accumulate_times P g s cls ca va key f c : 0 < c ->
  accumulate_over_paths P g s cls ca va key (fun tx rx p os => xmul (Fin c) (f tx rx p os)) =
  mkgen (map (times c) (yielded (accumulate_over_paths P g s cls ca va key f))) (raised (accumulate_over_paths P g s cls ca va key f)).
Proof. intro C. unfold accumulate_over_paths. destruct (raised _); apply acc_groups_times; auto. Qed.
