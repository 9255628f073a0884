(** A scene whose error at the identity is not zero. *)
Require Import Reals List Arith ZArith Lia Lra Psatz Bool.
From Verif Require Import Lin LinFacts SO3 SE3 SpecGeom SE3Alg SE3Exp Sums Registration SpecRegistration RegistrationMore Optimizer Planes SpecPlanes PlanesProofs PlanesMore SpecPlaneReg PlaneRegProofs PlaneRegMore PlaneRegBox.
From Verif Require Import CreatePoints CreatePointsProofs CreatePointsReg PropSE3 PropPlaneReg SharedPlanes SharedPlanesProofs SharedPlanesMore.
Import ListNotations.
Local Open Scope R_scope.

(** three points of the plane z = 0, seen from the origin and from one unit
    higher *)
Definition corner (i : nat) : V3 := match i with O => v3zero | 1%nat => mkV3 1 0 0 | _ => mkV3 0 1 0 end.
Definition hop : draws := mkDraws (fun _ => mkV6 v3zero v3zero) (mkV6 v3zero lift) (fun _ => (0, 0)) (fun _ i => corner i).
Lemma hop_index i : (i < 3)%nat -> plane_index i 1 3 = Some 0%nat /\ (0 < 1)%nat.
Proof. intros H. split; [|lia]. rewrite index_exact by lia. f_equal. rewrite Nat.mul_1_r. apply Nat.div_small. auto. Qed.
Lemma hop_final : se3_of_vec (d_final hop) = lifted.
Proof. cbn [d_final hop]. rewrite se3_exp_zero_rot. reflexivity. Qed.
Lemma hop_truth1 : truth_pose lifted 2 1 = lifted.
Proof.
  pose proof (truth_last lifted 2 (le_n 2)) as L. change (2 - 1)%nat with 1%nat in L. rewrite L. assert (E : lifted = se3_of_vec (mkV6 v3zero lift)) by (rewrite se3_exp_zero_rot; reflexivity). rewrite E, C14_ln_of_exp_zero. reflexivity.
Qed.
Lemma hop_positive ke : (forall Q, m4tr Q = Q -> exact4 (k_eigs ke) Q) -> exists s e x, create_points hop 3 1 2 = Some s /\ sc_final s = lifted /\
  get_current_error (k_eigs ke) (create_plane_registration s preg_new) = Some (e, x) /\ 0 < e.
Proof.
  intros X. destruct (scene_made (k_eigs ke) hop 3 1 2 (fun _ => 0%nat) hop_index) as (s & E & SI). pose proof (si_final _ _ _ _ _ _ _ SI) as EF. rewrite hop_final in EF.
  destruct (si_planes _ _ _ _ _ _ _ SI) as (P & EP & RP). rewrite EF in RP. set (truth := truth_pose lifted 2) in *. set (idx := fun _ : nat => 0%nat) in *.
  set (prog := [] ++ RSet 1 2 :: map (fill hop truth idx 3 2) (seq 0 1)).
  assert (R1 : reg_run ke prog preg_new = Some (create_plane_registration s preg_new)).
  { unfold prog. cbn [app reg_run reg_step]. unfold create_plane_registration. rewrite EP, (si_n _ _ _ _ _ _ _ SI), (si_N _ _ _ _ _ _ _ SI). apply (fill_run ke hop truth idx 3 1 2 P RP). intros k K. apply in_seq in K. lia. }
  assert (OK1 : Forall reg_ok prog).
  { unfold prog. constructor; [exact Logic.I|]. apply Forall_map, Forall_forall. intros k _. unfold fill. cbn [reg_ok]. apply no_clear_app. split; [apply no_clear_pushes, history_push | intros [C|[]]; discriminate]. }
  assert (PO : poses_of prog = 2%nat) by (unfold poses_of, prog; rewrite fill_planes; reflexivity).
  assert (PL : planes_of prog = map (fun k => (k, (2%nat, plane_history hop truth idx 3 k (seq 0 2) ++ [Reset]))) (seq 0 1)) by (unfold planes_of, prog; rewrite fill_planes; reflexivity).
  destruct (C68_error ke prog _ OK1 R1) as [DF ER]; [rewrite PO; lia|]. rewrite PO, PL in DF. rewrite PL in ER.
  destruct (proj2 DF) as (e & r' & GE). { unfold fits. apply Forall_map, Forall_forall. intros k _. cbn [fst snd]. lia. }
  exists s, e, r'. split; auto. split; auto. split; auto. destruct (ER e r' GE) as (_ & _ & TE). specialize (TE X).
  assert (TR : pr_traj (create_plane_registration s preg_new) = [m4id; m4id]).
  { rewrite create_reg by (apply (untouched_ok 1), (scene_untouched _ _ _ _ _ E)). cbn. rewrite (si_N _ _ _ _ _ _ _ SI). reflexivity. }
  rewrite TR in TE. pose proof (total_nonneg _ _ _ TE) as NN. destruct (Req_dec e 0) as [Z|NZ]; [|lra]. exfalso.
  destruct (total_zero _ _ _ TE Z 0%nat 2%nat (plane_history hop truth idx 3 0 (seq 0 2) ++ [Reset])) as (v & VN & IP); [left; reflexivity|].
  rewrite <- (app_nil_r (plane_history hop truth idx 3 0 (seq 0 2) ++ [Reset])), <- app_assoc, used_reset, app_nil_r in IP by constructor.
  assert (Q : forall t i, (t < 2)%nat -> (i < 3)%nat -> plane_at v (seen_point hop (truth t) idx t i) = 0).
  { intros t i Ht Hi. rewrite <- (move_id (seen_point hop (truth t) idx t i)). apply (IP m4id (pushed (plane_history hop truth idx 3 0 (seq 0 2)) t)).
    - unfold all_pushed. cbn [seq map combine In]. assert (C : t = 0%nat \/ t = 1%nat) by lia. destruct C as [-> | ->]; auto.
    - rewrite pushed_history by (try apply seq_NoDup; apply in_seq; lia). apply in_map_iff. exists i. split; auto. apply filter_In. split; [apply in_seq; lia | reflexivity]. }
  assert (S0 : forall i, seen_point hop (truth 0%nat) idx 0 i = corner i).
  { intros i. unfold seen_point, truth. rewrite truth_first. cbn [d_plane hop]. rewrite exp_zero. unfold sample_point. cbn [d_point d_bias hop fst snd]. destruct (corner i). unfold se3_transform, se3_inv, m4id. lin. }
  assert (S1 : forall i, seen_point hop (truth 1%nat) idx 1 i = v3sub (corner i) lift).
  { intros i. unfold seen_point, truth. rewrite hop_truth1. cbn [d_plane hop]. rewrite exp_zero. unfold sample_point. cbn [d_point d_bias hop fst snd]. destruct (corner i). unfold se3_transform, se3_inv, m4id, lifted, se3_of_Rt, lift. lin. }
  pose proof (Q 0%nat 0%nat ltac:(lia) ltac:(lia)) as A0. pose proof (Q 0%nat 1%nat ltac:(lia) ltac:(lia)) as A1. pose proof (Q 0%nat 2%nat ltac:(lia) ltac:(lia)) as A2. pose proof (Q 1%nat 0%nat ltac:(lia) ltac:(lia)) as A3.
  rewrite S0 in A0, A1, A2. rewrite S1 in A3. cbn [corner] in *. destruct v as [[a b c] w]. unfold plane_at, lift in *. revert A0 A1 A2 A3 VN. lin_unfold. intros A0 A1 A2 A3 VN.
  assert (w = 0) by lra. assert (a = 0) by lra. assert (b = 0) by lra. assert (c = 0) by lra. subst. apply VN. ring.
Qed.
