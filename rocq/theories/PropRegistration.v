(** C55-C58: point cloud registration and plane estimation. *)
Require Import Reals List Arith Lia Lra Psatz Bool.
From Verif Require Import Lin LinFacts SO3 SE3 SpecGeom SE3Ops SE3Alg Sums Registration SpecRegistration.
From Verif Require Import SpecFactors Factors3D SE3Exp ArunProofs RegistrationProofs SE3Tangent RegistrationMore Spectral.
Import ListNotations.
Local Open Scope R_scope.

(** ** C55 *)
(** When arun returns 1, T is rigid, minimises the sum of squared errors over
    all rigid motions, and is the only one to do so. *)
Theorem C55_least_squares : forall jacobi X Y T T', exact_svd jacobi X Y ->
  arun jacobi X Y T = Some (1%nat, T') ->
  rigid T' /\ (forall T2, rigid T2 -> sq_error T' X Y <= sq_error T2 X Y) /\
  (forall T2, rigid T2 -> sq_error T2 X Y <= sq_error T' X Y -> T2 = T').
Proof.
  intros f X Y T T' S H. destruct (arun_optimal f X Y T T' S H) as [[A B] C]. split; [exact A|]. split; [exact B|].
  intros T2 R2 L. apply C. split; auto. intros T3 R3. specialize (B T3 R3). lra.
Qed.
(** When it returns 0, T is unchanged. *)
Theorem C55_unchanged : forall jacobi X Y T T', arun jacobi X Y T = Some (0%nat, T') -> T' = T.
Proof. exact arun_unchanged. Qed.
(** It is defined exactly for arrays with equally many rows, and returns 0 or 1. *)
Theorem C55_total : forall jacobi X Y T,
  (arun jacobi X Y T = None <-> length Y <> length X) /\
  (forall r T', arun jacobi X Y T = Some (r, T') -> r = 0%nat \/ r = 1%nat).
Proof.
  intros f X Y T. split.
  - split; intros H.
    + intros E. destruct (arun_total f X Y T E) as (r & T' & E' & _). congruence.
    + unfold arun. apply Nat.eqb_neq in H. rewrite H. reflexivity.
  - intros r T' H. apply arun_inv in H. destruct H as (_ & [(_ & -> & _) | (_ & -> & _)]); auto.
Qed.
(** If the second cloud is an exact rigid copy of the first, arun finds the motion. *)
Theorem C55_exact_recovery : forall jacobi X T0 T T', exact_svd jacobi X (map (move T0) X) -> rigid T0 ->
  arun jacobi X (map (move T0) X) T = Some (1%nat, T') -> T' = T0.
Proof.
  intros f X T0 T T' S R0 H. destruct (C55_least_squares f X _ T T' S H) as (_ & _ & U). symmetry. apply U; auto.
  rewrite error_exact. apply error_nonneg.
Qed.
(** The result does not depend on which exact SVD is used, and exact SVDs exist. *)
Theorem C55_svd_independent : forall f g X Y T, exact_svd f X Y -> exact_svd g X Y -> arun f X Y T = arun g X Y T.
Proof. exact arun_svd_independent. Qed.
Theorem C55_svd_exists : forall X Y, exists jacobi, exact_svd jacobi X Y.
Proof. exact exact_svd_exists. Qed.
Print Assumptions C55_least_squares.
Print Assumptions C55_unchanged.
Print Assumptions C55_total.
Print Assumptions C55_exact_recovery.
Print Assumptions C55_svd_independent.
Print Assumptions C55_svd_exists.

Lemma cross6_svd : exact_svd (fun _ => mkSvd m3id (mkV3 18 8 2) m3id) (cross6 3 2 1) (cross6 3 2 1).
Proof. unfold exact_svd. rewrite cross6_gram. replace (2 * (3 * 3)) with 18 by ring. replace (2 * (2 * 2)) with 8 by ring. replace (2 * (1 * 1)) with 2 by ring. apply diag_svd; lra. Qed.
(** six points, accepted: the alignment is the identity *)
Example C55_ex : arun (fun _ => mkSvd m3id (mkV3 18 8 2) m3id) (cross6 3 2 1) (cross6 3 2 1) gT = Some (1%nat, m4id).
Proof.
  destruct (arun_accepts _ (cross6 3 2 1) (cross6 3 2 1) gT _ cross6_svd eq_refl cross6_svd) as [T' E]; [cbn; lra | cbn; lra|].
  rewrite E. f_equal. f_equal. replace (cross6 3 2 1) with (map (move m4id) (cross6 3 2 1)) in E at 2 by (rewrite <- (map_id (cross6 3 2 1)) at 2; apply map_ext; intros; apply move_id).
  apply C55_exact_recovery in E; auto using rigid_id.
  rewrite (map_ext _ (fun x => x) move_id), map_id. exact cross6_svd.
Qed.

(** ** C56 *)
(** Collinear clouds (in particular fewer than three points) are rejected. *)
Theorem C56_degenerate_rejected : forall jacobi X Y T, exact_svd jacobi X Y -> length Y = length X ->
  collinear X \/ collinear Y \/ (length X < 3)%nat -> arun jacobi X Y T = Some (0%nat, T).
Proof.
  intros f X Y T S L [H | [H | H]]; apply arun_collinear; auto. left. apply short_collinear; auto.
Qed.
(** Acceptance is decided by the gaps of the singular values of
    sum (x - mean)(y - mean)^T. *)
Theorem C56_gaps : forall jacobi X Y T s, exact_svd jacobi X Y -> length Y = length X ->
  svd_of (gram (centred X) (centred Y)) s ->
  ((exists T', arun jacobi X Y T = Some (1%nat, T')) <->
   vx (svd_D s) - vy (svd_D s) >= 1 / 1000000 /\ vy (svd_D s) - vz (svd_D s) >= 1 / 1000000).
Proof.
  intros f X Y T s S L H. split.
  - intros [T' E]. destruct (Rlt_dec (vx (svd_D s) - vy (svd_D s)) (1 / 1000000)) as [A | A].
    { rewrite (arun_rejects f X Y T s) in E; auto. discriminate. }
    destruct (Rlt_dec (vy (svd_D s) - vz (svd_D s)) (1 / 1000000)) as [B | B].
    { rewrite (arun_rejects f X Y T s) in E; auto. discriminate. }
    lra.
  - intros [A B]. apply (arun_accepts f X Y T s); auto.
Qed.
(** Return 0 does not mean that the points do not determine the transform:
    a symmetric cloud (the vertices of an octahedron) is always rejected, and so
    is every cloud whose matrix is small. *)
Theorem C56_symmetric_refuted : exists X Y T0, determined X Y T0 /\
  forall jacobi T, exact_svd jacobi X Y -> arun jacobi X Y T = Some (0%nat, T).
Proof.
  exists (cross6 1 1 1), (cross6 1 1 1), m4id. split; [|intros f T S; apply arun_cube; auto].
  replace (cross6 1 1 1) with (map (move m4id) (cross6 1 1 1)) at 2 by (rewrite (map_ext _ (fun x => x) move_id); apply map_id).
  apply determined_exact; [apply rigid_id|]. intros T RT E. apply (cross6_pins 1 1 1); auto using rigid_id; lra.
Qed.
Theorem C56_small_rejected : forall jacobi X Y T, exact_svd jacobi X Y -> length Y = length X ->
  m3frob2 (gram (centred X) (centred Y)) < 1 / 1000000000000 -> arun jacobi X Y T = Some (0%nat, T).
Proof. exact arun_small. Qed.
Theorem C56_small_refuted : exists X Y T0, determined X Y T0 /\
  forall jacobi T, exact_svd jacobi X Y -> arun jacobi X Y T = Some (0%nat, T).
Proof.
  exists (cross6 (3/10000) (2/10000) (1/10000)), (cross6 (3/10000) (2/10000) (1/10000)), m4id. split.
  - replace (cross6 (3/10000) (2/10000) (1/10000)) with (map (move m4id) (cross6 (3/10000) (2/10000) (1/10000))) at 2 by (rewrite (map_ext _ (fun x => x) move_id); apply map_id).
    apply determined_exact; [apply rigid_id|]. intros T RT E. apply (cross6_pins (3/10000) (2/10000) (1/10000)); auto using rigid_id; lra.
  - intros f T S. apply arun_small; auto. rewrite cross6_gram. unfold diag3. lin_unfold. lra.
Qed.
(** From Python the failure is invisible: identity is returned although it is
    not the alignment. *)
Theorem C56_python_refuted : exists X T0, rigid T0 /\
  forall jacobi, exact_svd jacobi X (map (move T0) X) ->
  arun_py jacobi X (map (move T0) X) = Some m4id /\ ~ best_alignment X (map (move T0) X) m4id.
Proof.
  exists (cross6 1 1 1), (se3_of_Rt m3id (mkV3 10 0 0)). assert (RT : rigid (se3_of_Rt m3id (mkV3 10 0 0))) by (apply rigid_of_Rt, rigid_id).
  split; auto. intros f S. split.
  - unfold arun_py. rewrite (arun_rejects f _ _ m4id (mkSvd m3id (mkV3 2 2 2) m3id)); auto.
    + rewrite gram_move, cross6_gram. replace (2 * (1 * 1)) with 2 by ring. cbn [mR se3_of_Rt]. rewrite m3tr_id, m3mul_id_r. apply diag_svd; lra.
    + cbn. lra.
  - intros [_ B]. specialize (B _ RT). rewrite error_exact in B. revert B. unfold cross6, move, se3_of_Rt. cbn [map sq_error]. unfold move. lin_unfold. lra.
Qed.
(** The Python call returns the best alignment or the identity. *)
Theorem C56_python : forall jacobi X Y T, exact_svd jacobi X Y -> arun_py jacobi X Y = Some T -> best_alignment X Y T \/ T = m4id.
Proof.
  intros f X Y T S. unfold arun_py. destruct (arun f X Y m4id) as [[r T']|] eqn:E; [|discriminate]. cbn. intros H. injection H as <-.
  destruct (C55_total f X Y m4id) as [_ D]. destruct (D _ _ E) as [-> | ->].
  - right. eapply C55_unchanged; eauto.
  - left. destruct (arun_optimal f X Y m4id T' S E) as [B _]. exact B.
Qed.
Print Assumptions C56_degenerate_rejected.
Print Assumptions C56_gaps.
Print Assumptions C56_symmetric_refuted.
Print Assumptions C56_small_rejected.
Print Assumptions C56_small_refuted.
Print Assumptions C56_python_refuted.
Print Assumptions C56_python.

Example C56_ex : collinear [mkV3 0 0 0; mkV3 1 1 0; mkV3 2 2 0; mkV3 5 5 0].
Proof.
  exists v3zero, (mkV3 1 1 0). intros x [<- | [<- | [<- | [<- | []]]]]; [exists 0 | exists 1 | exists 2 | exists 5]; lin.
Qed.

(** ** C57 *)
(** Both registrations run between 1 and 20 iterations, whatever the inverses return. *)
Theorem C57_iterations : forall inv3 inv6 junk X Y CX CY ws T tol n T',
  gicp inv3 inv6 junk X Y CX CY T tol = Some (n, T') \/ weighted_point inv6 junk X Y ws T tol = Some (n, T') ->
  (1 <= n <= 20)%nat.
Proof.
  intros inv3 inv6 junk X Y CX CY ws T tol n T' [H | H]; [apply gicp_some in H | apply weighted_some in H];
    destruct H as [_ H]; apply reg_loop_count in H; lia.
Qed.
(** They are defined when every array has at least as many rows (blocks) as X. *)
Theorem C57_defined : forall inv3 inv6 junk X Y CX CY ws T tol,
  (gicp inv3 inv6 junk X Y CX CY T tol <> None <-> (length X <= length Y /\ length X <= length CX /\ length X <= length CY)%nat) /\
  (weighted_point inv6 junk X Y ws T tol <> None <-> (length X <= length Y /\ length X <= length ws)%nat).
Proof.
  intros. unfold gicp, weighted_point. rewrite <- !Nat.leb_le.
  destruct (length X <=? length Y)%nat, (length X <=? length CX)%nat, (length X <=? length CY)%nat, (length X <=? length ws)%nat; cbn [andb];
  split; split; intros; try discriminate; intuition discriminate.
Qed.
(** T stays rigid up to the truncation of the exponential. *)
Theorem C57_rigid : forall inv3 inv6 junk X Y CX CY ws T tol n T', rigid T ->
  gicp inv3 inv6 junk X Y CX CY T tol = Some (n, Some T') \/ weighted_point inv6 junk X Y ws T tol = Some (n, Some T') ->
  near_rigid (20 * / 10 ^ 30) T'.
Proof.
  intros inv3 inv6 junk X Y CX CY ws T tol n T' R [H | H]; [apply gicp_some in H | apply weighted_some in H];
    destruct H as [_ H]; eapply reg_loop_rigid; eauto.
Qed.
(** Perfectly aligned clouds: T is returned unchanged after one iteration. *)
Theorem C57_aligned_gicp : forall inv3 inv6 junk X CX CY T tol, 0 <= tol -> (forall H, inv6 H <> None) ->
  length CX = length X -> length CY = length X ->
  gicp inv3 inv6 junk X (map (move T) X) CX CY T tol = Some (1%nat, Some T).
Proof.
  intros inv3 inv6 junk X CX CY T tol HT HI LX LY. unfold gicp. rewrite map_length, LX, LY, Nat.leb_refl. cbn [andb]. f_equal.
  destruct (inv6 (snd (reg_system (gicp_corrs inv3 X (map (move T) X) CX CY) T))) as [Hi|] eqn:E; [|destruct (HI _ E)].
  apply (zero_grad_loop _ _ _ _ _ Hi); auto. apply aligned_grad. intros c Hc. unfold gicp_corrs in Hc. apply in_map_iff in Hc.
  destruct Hc as ([[x y] [cx cy]] & <- & Hin). cbn [fst snd]. apply in_combine_l in Hin. clear - Hin.
  induction X as [|x0 X IH]; cbn in Hin; [contradiction|]. destruct Hin as [E | Hin]; [injection E as <- <-; reflexivity | auto].
Qed.
Theorem C57_aligned_weighted : forall inv6 junk X ws T tol, 0 <= tol -> (forall H, inv6 H <> None) ->
  length ws = length X -> weighted_point inv6 junk X (map (move T) X) ws T tol = Some (1%nat, Some T).
Proof.
  intros inv6 junk X ws T tol HT HI LX. unfold weighted_point. rewrite map_length, LX, Nat.leb_refl. cbn [andb]. f_equal.
  destruct (inv6 (snd (reg_system (weighted_corrs X (map (move T) X) ws) T))) as [Hi|] eqn:E; [|destruct (HI _ E)].
  apply (zero_grad_loop _ _ _ _ _ Hi); auto. apply aligned_grad. intros c Hc. unfold weighted_corrs in Hc. apply in_map_iff in Hc.
  destruct Hc as ([[x y] w] & <- & Hin). cbn [fst snd]. apply in_combine_l in Hin. clear - Hin.
  induction X as [|x0 X IH]; cbn in Hin; [contradiction|]. destruct Hin as [E | Hin]; [injection E as <- <-; reflexivity | auto].
Qed.
(** Every iteration is a Gauss-Newton step of the weighted squared error: it
    minimises the error with the residuals linearised at the current T; the run
    stops at the first step of norm at most tol or after the twentieth. *)
Theorem C57_weighted_steps : forall inv6 junk X Y ws T tol n T',
  (forall H Hi, inv6 H = Some Hi -> m6mul H Hi = m6id) -> Forall (fun w => 0 <= w) ws ->
  weighted_point inv6 junk X Y ws T tol = Some (n, Some T') ->
  gn_run (fun _ => weighted_at X Y ws) tol 0 T n T'.
Proof.
  intros inv6 junk X Y ws T tol n T' HI HW H. apply weighted_some in H. destruct H as [_ H].
  eapply (reg_loop_run _ _ _ _ (fun _ => weighted_at X Y ws)); [| exact HI | | | | exact H]; [| | lia | lia].
  - intros. symmetry. apply weighted_corrs_at.
  - intros. apply weighted_at_ok; auto.
Qed.
Lemma gicp_invertible (X Y : list V3) (CX CY : list M3) T A : Forall covariance3 CX ->
  Forall (fun C => sym3 C /\ forall v, v <> v3zero -> 0 < quad3 C v v) CY ->
  In A (map (fun p => m3add (snd (snd p)) (m3mul (m3mul (mR T) (fst (snd p))) (m3tr (mR T)))) (combine (combine X Y) (combine CX CY))) ->
  m3det A <> 0.
Proof.
  intros FX FY Hin. apply in_map_iff in Hin. destruct Hin as ([[x y] [cx cy]] & <- & Hin). cbn [fst snd]. apply in_combine_r in Hin.
  pose proof (in_combine_l _ _ _ _ Hin) as Hx. pose proof (in_combine_r _ _ _ _ Hin) as Hy. rewrite Forall_forall in FX, FY.
  destruct (FX _ Hx) as [SX PX], (FY _ Hy) as [SY PY]. unfold sym3 in *. apply pd_det.
  - unfold sym3. rewrite m3tr_add, !m3tr_mul, m3tr_tr, SX, SY, m3mul_assoc. reflexivity.
  - intros u NZ. unfold quad3. replace (v3dot u (m3app (m3add cy (m3mul (m3mul (mR T) cx) (m3tr (mR T)))) u)) with
    (quad3 cy u u + quad3 cx (m3app (m3tr (mR T)) u) (m3app (m3tr (mR T)) u)) by (unfold quad3; generalize (mR T); clear; lin).
    pose proof (PX (m3app (m3tr (mR T)) u)). specialize (PY u NZ). lra.
Qed.
Theorem C57_gicp_steps : forall inv3 inv6 junk X Y CX CY T tol n T', inverts3 inv3 ->
  (forall H Hi, inv6 H = Some Hi -> m6mul H Hi = m6id) ->
  Forall (fun C => sym3 C /\ psd3 C) CX -> Forall (fun C => sym3 C /\ forall v, v <> v3zero -> 0 < quad3 C v v) CY ->
  gicp inv3 inv6 junk X Y CX CY T tol = Some (n, Some T') ->
  gn_run (gicp_at inv3 X Y CX CY) tol 0 T n T'.
Proof.
  intros inv3 inv6 junk X Y CX CY T tol n T' I3 HI FX FY H. apply gicp_some in H. destruct H as [_ H].
  eapply (reg_loop_run _ _ _ _ (gicp_at inv3 X Y CX CY)); [| exact HI | | | | exact H]; [| | lia | lia].
  - intros. symmetry. apply gicp_corrs_at.
  - intros T0. apply gicp_at_ok; auto.
    + eapply Forall_impl; [|exact FY]. intros C [S P]. split; auto. intros v. destruct (Req_dec (v3sqn v) 0) as [Z | Z].
      * apply v3sqn_zero in Z. subst. unfold quad3. right. destruct C. lin.
      * left. apply P. intros ->. apply Z. lin.
    + intros A HA. apply I3. eapply gicp_invertible; eauto.
Qed.
(** The linearisation is right: along T <- exp(s xi) T of the code the weighted
    error and the linearised error have the same derivative. *)
Theorem C57_linearisation : forall l T xi, mb T = v3zero -> mc T = 1 -> Forall (fun c => sym3 (snd c)) l ->
  exists g, derivable_pt_lim (fun s => weighted_error l (se3_update_lhs T (v6scal s xi))) 0 g /\
            derivable_pt_lim (fun s => linear_error l T (v6scal s xi)) 0 g /\
            linear_error l T v6zero = weighted_error l T.
Proof.
  intros l T xi A B F. exists (slope l T xi). split; [apply error_rate; [split; auto | auto]|]. split; [apply linear_rate; auto|].
  replace v6zero with (v6scal 0 xi) by (destruct xi; lin). rewrite linear_along by auto. ring.
Qed.
(** Every step is a descent direction; a zero step is a stationary point. *)
Theorem C57_descent : forall l T d, mb T = v3zero -> mc T = 1 -> Forall (fun c => sym3 (snd c) /\ psd3 (snd c)) l ->
  gn_step l T d ->
  exists g, g <= 0 /\ derivable_pt_lim (fun s => weighted_error l (se3_update_lhs T (v6scal s d))) 0 g.
Proof.
  intros l T d A B F G. exists (slope l T d). split; [apply step_descends; auto | apply error_rate; [split; auto | apply forall_sym; auto]].
Qed.
Theorem C57_stationary : forall l T, mb T = v3zero -> mc T = 1 -> Forall (fun c => sym3 (snd c) /\ psd3 (snd c)) l ->
  gn_step l T v6zero ->
  forall xi, derivable_pt_lim (fun s => weighted_error l (se3_update_lhs T (v6scal s xi))) 0 0.
Proof.
  intros l T A B F G xi. pose proof (error_rate l T xi (conj A B) (forall_sym l F)) as E. rewrite (step_zero_slope l T F G xi) in E. exact E.
Qed.
(** gicp ignores that its weights depend on T: it can stop at a T (here the
    identity, after one iteration) whose error - with the covariances rotated to
    T, as documented - is larger than at another rigid motion. *)
Theorem C57_gicp_refuted : exists X Y CX CY T2,
  Forall (fun C => sym3 C /\ psd3 C) CX /\ Forall (fun C => sym3 C /\ forall v, v <> v3zero -> 0 < quad3 C v v) CY /\ rigid T2 /\
  forall inv3 inv6 junk tol, inverts3 inv3 -> (forall H, inv6 H <> None) -> 0 <= tol ->
  gicp inv3 inv6 junk X Y CX CY m4id tol = Some (1%nat, Some m4id) /\
  weighted_error (gicp_at inv3 X Y CX CY T2) T2 < weighted_error (gicp_at inv3 X Y CX CY m4id) m4id.
Proof.
  exists gx, gy, gcx, gcy, gT. split; [|split; [|split; [exact gT_rigid|]]].
  - assert (Z : covariance3 m3zero) by (split; [unfold sym3; lin | intros v; unfold quad3; right; destruct v; lin]).
    change (Forall covariance3 gcx). apply Forall_forall. intros C [<- | [<- | [<- | [<- | [<- | []]]]]]; auto using gcov_ok.
  - apply Forall_forall. intros C HC. assert (C = m3id) as -> by (destruct HC as [<- | [<- | [<- | [<- | [<- | []]]]]]; reflexivity).
    split; [unfold sym3; lin | apply id_pd].
  - intros inv3 inv6 junk tol I3 I6 HT. split.
    + destruct (inv6 (snd (reg_system (gicp_corrs inv3 gx gy gcx gcy) m4id))) as [Hi|] eqn:E; [|destruct (I6 _ E)].
      apply (gicp_fixed inv3 inv6 junk tol Hi); auto.
    + rewrite gicp_error_id, gicp_error_turned by auto. lra.
Qed.
Print Assumptions C57_iterations.
Print Assumptions C57_defined.
Print Assumptions C57_rigid.
Print Assumptions C57_aligned_gicp.
Print Assumptions C57_aligned_weighted.
Print Assumptions C57_weighted_steps.
Print Assumptions C57_gicp_steps.
Print Assumptions C57_linearisation.
Print Assumptions C57_descent.
Print Assumptions C57_stationary.
Print Assumptions C57_gicp_refuted.

(** the closed form inverse satisfies the hypothesis on inv3 *)
Example C57_ex_inv3 : inverts3 inv3_adj. Proof. exact inv3_adj_ok. Qed.
(** an exact partial inverse, and a run with it: one Gauss-Newton step moves an
    octahedron onto its translated copy *)
Lemma m6_dec (A B : M6) : {A = B} + {A <> B}.
Proof. repeat decide equality; apply Req_EM_T. Defined.
Definition hi : M6 := mkM6 (m3scal (/4) m3id) m3zero m3zero (m3scal (/6) m3id).
Definition inv_ex (H : M6) : option M6 := if m6_dec (m6mul H hi) m6id then Some hi else None.
Lemma one_pass inv6 junk tol cs T J H Hi d left : reg_system cs T = (J, H) -> inv6 H = Some Hi -> v6opp (m6app Hi J) = d ->
  v6norm d <= tol -> reg_loop inv6 junk tol cs (S left) 0 (Some T) = (1%nat, Some (se3_update_lhs T d)).
Proof. intros E EI ED L. cbn [reg_loop]. rewrite E, EI, ED. apply Rltb_false in L. rewrite L. reflexivity. Qed.
Example C57_ex_steps : (forall H Hi, inv_ex H = Some Hi -> m6mul H Hi = m6id) /\
  weighted_point inv_ex (fun _ => false) (cross6 1 1 1) (map (move (se3_of_Rt m3id (mkV3 1 2 3))) (cross6 1 1 1)) [1;1;1;1;1;1] m4id 4
  = Some (1%nat, Some (se3_of_Rt m3id (mkV3 1 2 3))).
Proof.
  split.
  - intros H Hi. unfold inv_ex. destruct (m6_dec (m6mul H hi) m6id); [|discriminate]. intros E. injection E as <-. auto.
  - unfold weighted_point. cbn [length cross6 map Nat.leb andb]. f_equal.
    transitivity (1%nat, Some (se3_update_lhs m4id (mkV6 v3zero (mkV3 1 2 3)))).
    2:{ unfold se3_update_lhs. rewrite se3_exp_zero_rot, m4mul_id_r. reflexivity. }
    eapply one_pass.
    + instantiate (1 := mkM6 (m3scal 4 m3id) m3zero m3zero (m3scal 6 m3id)). instantiate (1 := mkV6 v3zero (mkV3 (-6) (-12) (-18))).
      unfold weighted_corrs, reg_system, cross6. cbn [combine map fold_left fst snd]. unfold reg_accum, weight_info, reg_grad, reg_hess, reg_jac, se3_transform, move, se3_of_Rt.
      cbv zeta beta iota. unfold hat3. cbn [fst snd]. apply f_equal2; lin.
    + unfold inv_ex. destruct (m6_dec _ _) as [Q | Q]; [reflexivity|]. exfalso. apply Q. unfold hi. lin_unfold. unfold m6id, m3id, m3zero. f_equal; apply m3_eq; field.
    + unfold hi. lin_unfold. unfold v3zero. f_equal; apply v3_eq; field.
    + unfold v6norm. replace 4 with (sqrt (4 * 4)) by (apply sqrt_square; lra). apply sqrt_le_1_alt. lin_unfold. lra.
Qed.
(** five points: an aligned start *)
Example C57_ex_aligned : weighted_point (fun _ => Some m6id) (fun _ => false) gx (map (move gT) gx) [1; 2; 3; 4; 5] gT (1/10000) = Some (1%nat, Some gT).
Proof. apply C57_aligned_weighted; [lra | discriminate | reflexivity]. Qed.

(** ** C58 *)
(** The plane has a unit normal, passes through the centroid, and no plane at
    all has a smaller sum of squared distances. *)
Theorem C58_plane : forall solver X p, exact_eigen solver X -> estimate_plane solver X = Some p ->
  v3norm (v4h p) = 1 /\
  (forall c, estimate_centroid X = Some c -> v3dot (v4h p) c + v4l p = 0) /\
  (forall n d, v3norm n = 1 -> plane_error p X <= plane_error (mkV4 n d) X).
Proof.
  intros f X p S E. split; [eapply plane_unit; eauto|]. split.
  - intros c Ec. pose proof (plane_through f X p E) as P. unfold estimate_centroid in Ec. destruct X; [discriminate|]. injection Ec as <-. exact P.
  - apply (plane_best f X p S E).
Qed.
(** ... and it is the only best plane, up to the sign of (n, d), when the two
    smallest eigenvalues of the scatter matrix differ. *)
Theorem C58_unique : forall solver X p n d, exact_eigen solver X -> estimate_plane solver X = Some p ->
  vx (eig_vals (solver (gram (centred X) (centred X)))) < vy (eig_vals (solver (gram (centred X) (centred X)))) ->
  v3norm n = 1 -> plane_error (mkV4 n d) X <= plane_error p X -> mkV4 n d = p \/ mkV4 n d = v4scal (-1) p.
Proof. exact plane_unique. Qed.
(** Points on a plane: the error of the estimate is zero. *)
Theorem C58_exact : forall solver X p n d, exact_eigen solver X -> estimate_plane solver X = Some p ->
  v3norm n = 1 -> (forall x, In x X -> v3dot n x + d = 0) -> forall x, In x X -> v3dot (v4h p) x + v4l p = 0.
Proof.
  intros f X p n d S E U Z x Hx. destruct (plane_best f X p S E) as [_ B]. specialize (B n d U).
  assert (Z0 : plane_error (mkV4 n d) X = 0) by (unfold plane_error; apply lsum_zero; intros y Hy; cbn [v4h v4l]; rewrite (Z y Hy); ring).
  rewrite Z0 in B. unfold plane_error in B.
  assert (Q : (v3dot (v4h p) x + v4l p) * (v3dot (v4h p) x + v4l p) <= 0).
  { eapply Rle_trans; [|exact B]. clear - Hx. induction X as [|y X IH]; [contradiction|]. rewrite lsum_cons.
    assert (0 <= lsum X (fun x => (v3dot (v4h p) x + v4l p) * (v3dot (v4h p) x + v4l p))).
    { rewrite <- (lsum_0 X). apply lsum_le. intros; apply Rle_0_sqr. }
    destruct Hx as [-> | Hx]; [lra|]. specialize (IH Hx). pose proof (Rle_0_sqr (v3dot (v4h p) y + v4l p)). unfold Rsqr in *. lra. }
  pose proof (Rle_0_sqr (v3dot (v4h p) x + v4l p)). unfold Rsqr in *. nra.
Qed.
(** estimate_normal is the normal of estimate_plane; all three fail exactly on
    the empty array. *)
Theorem C58_normal : forall solver X, estimate_normal solver X = option_map v4h (estimate_plane solver X) /\
  (estimate_plane solver X = None <-> X = []) /\ (estimate_normal solver X = None <-> X = []) /\ (estimate_centroid X = None <-> X = []).
Proof. intros f [|x X]; cbn; repeat split; intros; auto; discriminate. Qed.
(** estimate_centroid is the mean, and commutes with rigid motions. *)
Theorem C58_centroid : forall X c, estimate_centroid X = Some c ->
  v3scal (INR (length X)) c = mkV3 (lsum X vx) (lsum X vy) (lsum X vz) /\
  (forall T, estimate_centroid (map (move T) X) = Some (move T c)).
Proof.
  intros X c H. split; [apply centroid_mean; auto|]. intros T. unfold estimate_centroid in *. destruct X as [|x X]; [discriminate|].
  injection H as <-. cbn [map]. f_equal. change (move T x :: map (move T) X) with (map (move T) (x :: X)). apply mean_move. discriminate.
Qed.
Theorem C58_eigen_exists : forall X, exists solver, exact_eigen solver X.
Proof. exact exact_eigen_exists. Qed.
Print Assumptions C58_plane.
Print Assumptions C58_unique.
Print Assumptions C58_exact.
Print Assumptions C58_normal.
Print Assumptions C58_centroid.
Print Assumptions C58_eigen_exists.

(** a flat cloud in the plane z = 0 *)
Example C58_ex : exact_eigen (fun _ => mkEigen (mkV3 0 8 18) (mkM3 0 0 1 0 1 0 1 0 0)) (cross6 3 2 0) /\
  estimate_plane (fun _ => mkEigen (mkV3 0 8 18) (mkM3 0 0 1 0 1 0 1 0 0)) (cross6 3 2 0) = Some (mkV4 (mkV3 0 0 1) 0).
Proof.
  split.
  - unfold exact_eigen. rewrite cross6_gram. unfold eigen_of. cbn [eig_vecs eig_vals vx vy vz]. split; [unfold orthogonal; lin|]. split; [unfold diag3; lin | lra].
  - unfold estimate_plane. change (match cross6 3 2 0 with [] => None | _ => ?e end) with e. cbn [cross6]. cbv beta iota zeta. fold (cross6 3 2 0).
    rewrite cross6_mean. f_equal. unfold col0. cbn [eig_vecs a00 a10 a20]. lin.
Qed.
