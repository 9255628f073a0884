(** C94: plane registrations in another coordinate frame. *)
Require Import Reals List Arith Lia Lra Psatz Bool.
From Verif Require Import Lin LinFacts SO3 SE3 SpecGeom SO3Exp SE3Ops SE3Alg SE3Exp Sums.
From Verif Require Import Registration SpecRegistration ArunProofs RegistrationMore Optimizer Planes SpecPlanes PlanesProofs PlanesEigen PlanesMore.
From Verif Require Import SpecPlaneReg PlaneRegProofs PlaneRegMore PlaneRegSolve PlaneRegInit PlaneRegGrad PlaneRegGrad3 PropPlaneReg PropPlaneGrad SpecPlaneFrame PlaneFrame.
Import ListNotations.
Local Open Scope R_scope.

Lemma both_errors k G ops r r' e e' r1 r1' : (forall Q, m4tr Q = Q -> exact4 (k_eigs k) Q) -> rigid G -> Forall reg_ok ops -> (0 < poses_of ops)%nat ->
  reg_run k ops preg_new = Some r -> reg_run k (map (call_in_frame G) ops) preg_new = Some r' -> pr_traj r' = map (in_frame G) (pr_traj r) ->
  get_current_error (k_eigs k) r = Some (e, r1) -> get_current_error (k_eigs k) r' = Some (e', r1') ->
  rotation (mR G) /\ Forall hom4 (pr_traj r) /\ total_error (pr_traj r) (planes_of ops) e /\ total_error (map (in_frame G) (pr_traj r)) (map (entry_frame G) (planes_of ops)) e'.
Proof.
  intros X [O _] F N E E' T H H'. pose proof (after_run k ops r F E) as AF. split; [exact O|]. split; [exact (Forall_inv_tail (af_hom _ _ _ AF))|].
  split; [apply (proj2 (C68_error k ops r F E N) e r1 H); exact X|].
  rewrite <- T, <- planes_frame. apply (proj2 (C68_error k _ r' (ok_frame G ops F) E' ltac:(rewrite poses_frame; exact N)) e' r1' H'). exact X.
Qed.
(** The errors of the same scans in two frames differ at most by the factor
    (1 + |t|)^2, t being the translation between the frames. *)
Theorem C94_bounds : forall k G ops r r' e e' r1 r1', (forall Q, m4tr Q = Q -> exact4 (k_eigs k) Q) -> rigid G -> Forall reg_ok ops -> (0 < poses_of ops)%nat ->
  reg_run k ops preg_new = Some r -> reg_run k (map (call_in_frame G) ops) preg_new = Some r' -> pr_traj r' = map (in_frame G) (pr_traj r) ->
  get_current_error (k_eigs k) r = Some (e, r1) -> get_current_error (k_eigs k) r' = Some (e', r1') ->
  let c := 1 + sqrt (v3dot (mt G) (mt G)) in e' <= c * c * e /\ e <= c * c * e'.
Proof.
  intros k G ops r r' e e' r1 r1' X RG F N E E' T H H' c. destruct (both_errors _ _ _ _ _ _ _ _ _ X RG F N E E' T H H') as (O & HM & A & B). split; [eapply total_frame | eapply total_back]; eauto.
Qed.
Print Assumptions C94_bounds.
(** The error is the same in frames with the same origin. *)
Theorem C94_rotation : forall k G ops r r' e e' r1 r1', (forall Q, m4tr Q = Q -> exact4 (k_eigs k) Q) -> rigid G -> mt G = v3zero -> Forall reg_ok ops -> (0 < poses_of ops)%nat ->
  reg_run k ops preg_new = Some r -> reg_run k (map (call_in_frame G) ops) preg_new = Some r' -> pr_traj r' = map (in_frame G) (pr_traj r) ->
  get_current_error (k_eigs k) r = Some (e, r1) -> get_current_error (k_eigs k) r' = Some (e', r1') -> e' = e.
Proof.
  intros k G ops r r' e e' r1 r1' X RG Z F N E E' T H H'. pose proof (C94_bounds _ _ _ _ _ _ _ _ _ X RG F N E E' T H H') as B. cbv zeta in B. rewrite Z in B.
  replace (v3dot v3zero v3zero) with 0 in B by (unfold v3dot, v3zero; cbn; ring). rewrite sqrt_0 in B. lra.
Qed.
Print Assumptions C94_rotation.
(** An error of zero is zero in every frame. *)
Theorem C94_zero : forall k G ops r r' e e' r1 r1', (forall Q, m4tr Q = Q -> exact4 (k_eigs k) Q) -> rigid G -> Forall reg_ok ops -> (0 < poses_of ops)%nat ->
  reg_run k ops preg_new = Some r -> reg_run k (map (call_in_frame G) ops) preg_new = Some r' -> pr_traj r' = map (in_frame G) (pr_traj r) ->
  get_current_error (k_eigs k) r = Some (e, r1) -> get_current_error (k_eigs k) r' = Some (e', r1') -> (e = 0 <-> e' = 0).
Proof.
  intros k G ops r r' e e' r1 r1' X RG F N E E' T H H'. destruct (C94_bounds _ _ _ _ _ _ _ _ _ X RG F N E E' T H H') as [A B]. set (c := (1 + sqrt (v3dot (mt G) (mt G))) * (1 + sqrt (v3dot (mt G) (mt G)))) in *. pose proof (growth_ge (mt G)) as K. fold c in A, B. unfold growth in K. fold c in K. clearbody c.
  split; intros Z; nra.
Qed.
Print Assumptions C94_zero.
(** Far from the origin the error is small whatever the scans are: s away, in any
    direction v, it is at most a constant over 1 + s^2. *)
Theorem C94_far : forall k v s ops r r' e' r1', (forall Q, m4tr Q = Q -> exact4 (k_eigs k) Q) -> v3dot v v = 1 -> Forall reg_ok ops -> (0 < poses_of ops)%nat ->
  reg_run k ops preg_new = Some r -> reg_run k (map (call_in_frame (shift (v3scal s v))) ops) preg_new = Some r' -> pr_traj r' = map (in_frame (shift (v3scal s v))) (pr_traj r) ->
  get_current_error (k_eigs k) r' = Some (e', r1') -> (1 + s * s) * e' <= misfit (pr_traj r) (planes_of ops) (fun _ => mkV4 v 0).
Proof.
  intros k v s ops r r' e' r1' X V F N E E' T H'. pose proof (after_run k ops r F E) as AF. apply total_far; [exact V | exact (Forall_inv_tail (af_hom _ _ _ AF))|].
  rewrite <- T, <- planes_frame. apply (proj2 (C68_error k _ r' (ok_frame _ ops F) E' ltac:(rewrite poses_frame; exact N)) e' r1' H'). exact X.
Qed.
Print Assumptions C94_far.
Theorem C94_vanishes : forall k v ops r eps, (forall Q, m4tr Q = Q -> exact4 (k_eigs k) Q) -> v3dot v v = 1 -> Forall reg_ok ops -> (0 < poses_of ops)%nat -> reg_run k ops preg_new = Some r -> 0 < eps ->
  exists s0, forall s r' e' r1', s0 < s -> reg_run k (map (call_in_frame (shift (v3scal s v))) ops) preg_new = Some r' -> pr_traj r' = map (in_frame (shift (v3scal s v))) (pr_traj r) ->
  get_current_error (k_eigs k) r' = Some (e', r1') -> e' < eps.
Proof.
  intros k v ops r eps X V F N E P. set (C := misfit (pr_traj r) (planes_of ops) (fun _ => mkV4 v 0)). assert (C0 : 0 <= C) by (apply lsum_nonneg; intros; apply cloud_nonneg).
  exists (1 + C / eps). intros s r' e' r1' S E' T H'. pose proof (C94_far k v s ops r r' e' r1' X V F N E E' T H') as B. fold C in B.
  assert (D : 0 <= C / eps) by (apply Rmult_le_pos; [exact C0 | apply Rlt_le, Rinv_0_lt_compat; exact P]). assert (CE : C = C / eps * eps) by (field; lra). set (q := C / eps) in *. clearbody q C.
  assert (q < 1 + s * s) by nra. destruct (Rlt_dec e' eps) as [|L]; auto. exfalso. assert ((1 + s * s) * eps <= (1 + s * s) * e') by (apply Rmult_le_compat_l; nra). nra.
Qed.
Print Assumptions C94_vanishes.

(** ** Which pose is best depends on the frame *)
Definition slab : list V3 := [mkV3 3 0 (1/2); mkV3 3 0 (-1/2); mkV3 (-3) 0 (1/2); mkV3 (-3) 0 (-1/2); mkV3 0 3 (1/2); mkV3 0 3 (-1/2); mkV3 0 (-3) (1/2); mkV3 0 (-3) (-1/2)].
Definition raised (p : list V3) (q : V3) (T : M4) : list reg_op := [RSet 1 2; RNew 0] ++ (map (RPush 0 0) p ++ [RPush 0 1 q]) ++ [RLast T].
Definition one_up : M4 := shift (mkV3 0 0 1).
Lemma raised_run k p q T : exists r, reg_run k (raised p q T) preg_new = Some r /\ pr_traj r = [m4id; se3_of_vec (v6scal 1 (se3_ln_vee T))].
Proof.
  destruct (enabled_run k (raised p q T)) as (r & E & _).
  { unfold raised. cbn [app]. split; [cbn; auto|]. split; [cbn; auto|]. set (h := note _ _). assert (K : known 0 (snd h) = true) by reflexivity. clearbody h. revert h K. induction p as [|x p IH]; intros h K.
    - cbn [map app enabled_all]. repeat split; cbn; auto.
    - cbn [map app enabled_all]. split; [exact K|]. apply IH. cbn [note snd]. unfold extend, known in *. rewrite <- K. clear. induction (snd h) as [|y l IH]; [reflexivity|]. cbn [map existsb]. rewrite IH. destruct (Nat.eqb 0 (fst y)); reflexivity. }
  exists r. split; [exact E|]. assert (F : Forall (fun o => exists i t x, o = RPush i t x) (map (RPush 0 0) p ++ [RPush 0 1 q])).
  { apply Forall_app. split; [|repeat constructor; eauto]. apply Forall_map. apply Forall_forall. intros; eauto. }
  rewrite (pushes_then_last k 1 2 0 _ T r F ltac:(lia) E). unfold interpolate. cbn [repeat length seq combine map fst snd Nat.leb Nat.ltb andb]. apply f_equal2; [reflexivity|]. apply f_equal2; [|reflexivity]. unfold interpolated. cbn [Nat.sub INR]. f_equal. f_equal. field.
Qed.
Lemma raised_planes T : planes_of (raised slab v3zero T) = [(0%nat, (2%nat, map (fun x => Push x 0) slab ++ [Push v3zero 1]))]. Proof. reflexivity. Qed.
Lemma raised_poses T : poses_of (raised slab v3zero T) = 2%nat. Proof. reflexivity. Qed.
Lemma raised_used : used 2 (map (fun x => Push x 0) slab ++ [Push v3zero 1]) = [slab; [v3zero]]. Proof. reflexivity. Qed.
Lemma raised_frame G p q T : map (call_in_frame G) (raised p q T) = raised (map (move G) p) (move G q) (in_frame G T).
Proof. unfold raised. rewrite !map_app, !map_map. reflexivity. Qed.
(** the error of such a program *)
Lemma raised_error k p q T : (forall Q, m4tr Q = Q -> exact4 (k_eigs k) Q) -> used 2 (snd (snd (hd (0%nat, (0%nat, [])) (planes_of (raised p q T))))) = [p; [q]] ->
  planes_of (raised p q T) = [(0%nat, (2%nat, snd (snd (hd (0%nat, (0%nat, [])) (planes_of (raised p q T))))))] -> poses_of (raised p q T) = 2%nat ->
  exists r e r1, reg_run k (raised p q T) preg_new = Some r /\ get_current_error (k_eigs k) r = Some (e, r1) /\ least (fun u => cloud_error u [m4id; se3_of_vec (v6scal 1 (se3_ln_vee T))] [p; [q]]) e.
Proof.
  intros X U PL PO. destruct (raised_run k p q T) as (r & E & TR). assert (F : Forall reg_ok (raised p q T)).
  { unfold raised. repeat (apply Forall_app; split); repeat constructor. apply Forall_map, Forall_forall. intros; exact I. }
  destruct (C68_error k _ r F E ltac:(rewrite PO; lia)) as [DF ER]. destruct (proj2 DF) as (e & r1 & H); [rewrite PO, PL; repeat constructor|].
  exists r, e, r1. split; [exact E|]. split; [exact H|]. destruct (ER e r1 H) as (_ & _ & TE). specialize (TE X). rewrite TR, PL in TE. inversion TE as [|? ? ? ? e0 s0 L T2]; subst. inversion T2; subst. rewrite U in L. rewrite Rplus_0_r. exact L.
Qed.
Theorem C94_best_refuted : exists G calls, rigid G /\ Forall building calls /\ forall k, (forall Q, m4tr Q = Q -> exact4 (k_eigs k) Q) ->
  (exists r e r1, reg_run k (calls ++ [RLast m4id]) preg_new = Some r /\ get_current_error (k_eigs k) r = Some (e, r1) /\
    forall T r' e' r1', reg_run k (calls ++ [RLast T]) preg_new = Some r' -> get_current_error (k_eigs k) r' = Some (e', r1') -> e <= e') /\
  exists T r e r1 r' e' r1', rigid T /\
    reg_run k (map (call_in_frame G) (calls ++ [RLast m4id])) preg_new = Some r /\ get_current_error (k_eigs k) r = Some (e, r1) /\
    reg_run k (map (call_in_frame G) (calls ++ [RLast T])) preg_new = Some r' /\ get_current_error (k_eigs k) r' = Some (e', r1') /\ e' < e.
Proof.
  exists one_up, ([RSet 1 2; RNew 0] ++ map (RPush 0 0) slab ++ [RPush 0 1 v3zero]).
  assert (AS : forall T, ([RSet 1 2; RNew 0] ++ map (RPush 0 0) slab ++ [RPush 0 1 v3zero]) ++ [RLast T] = raised slab v3zero T) by reflexivity.
  split; [split; [exact rotation_id | split; reflexivity]|]. split; [repeat constructor|]. intros k X. split.
  - rewrite AS. destruct (raised_error k slab v3zero m4id X raised_used eq_refl eq_refl) as (r & e & r1 & E & H & L). exists r, e, r1. split; [exact E|]. split; [exact H|].
    intros T r' e' r1' E' H'. rewrite AS in E'. destruct (raised_error k slab v3zero T X raised_used eq_refl eq_refl) as (r2 & e2 & r3 & E2 & H2 & L2). rewrite E2 in E'. injection E' as ->. rewrite H2 in H'. injection H' as -> ->.
    apply Rle_trans with 2.
    + destruct L as [_ L]. specialize (L (mkV4 (mkV3 0 0 1) 0)). assert (UN : unit4 (mkV4 (mkV3 0 0 1) 0)) by (unfold unit4, v4dot, v3dot; cbn; ring). specialize (L UN).
      replace (se3_of_vec (v6scal 1 (se3_ln_vee m4id))) with m4id in L.
      2: { change m4id with (se3_of_Rt m3id v3zero). rewrite ln_translation, exp_translation. f_equal. unfold v3zero. lin. }
      unfold cloud_error, slab, plane_at, move, lsum in L. cbn [combine fold_right map fst snd] in L. lin_unfold_in L. lra.
    + destruct L2 as [(u & U & <-) _]. unfold cloud_error. cbn [combine]. set (T1 := se3_of_vec _). clearbody T1. unfold lsum at 1. cbn [fold_right fst snd]. 
      assert (Z : 0 <= lsum [v3zero] (fun x => plane_at u (move T1 x) * plane_at u (move T1 x))) by (apply lsum_nonneg; intros; nra).
      assert (SL : 2 <= lsum slab (fun x => plane_at u (move m4id x) * plane_at u (move m4id x))).
      { clear - U. destruct u as [[a b c] d]. unfold unit4, v4dot, v3dot in U. cbn in U. unfold lsum, slab, plane_at, move. cbn [fold_right]. lin_unfold. nra. }
      lra.
  - exists (shift (mkV3 0 0 (13/100))). rewrite !AS, !raised_frame. set (p := map (move one_up) slab). set (q := move one_up v3zero).
    destruct (raised_error k p q (in_frame one_up m4id) X eq_refl eq_refl eq_refl) as (r & e & r1 & E & H & L).
    destruct (raised_error k p q (in_frame one_up (shift (mkV3 0 0 (13/100)))) X eq_refl eq_refl eq_refl) as (r' & e' & r1' & E' & H' & L').
    exists r, e, r1, r', e', r1'. split; [split; [exact rotation_id | split; reflexivity]|]. split; [exact E|]. split; [exact H|]. split; [exact E'|]. split; [exact H'|].
    apply Rlt_le_trans with (942/1000).
    + replace (in_frame one_up (shift (mkV3 0 0 (13/100)))) with (se3_of_Rt m3id (mkV3 0 0 (13/100))) in L' by (unfold in_frame, one_up, shift, se3_of_Rt, se3_inv; lin). rewrite ln_translation, exp_translation in L'.
      pose proof (least_below _ _ _ (mkV4 (mkV3 0 0 1) (-113/100)) (10000/22769) L' ltac:(lra)) as B. apply Rle_lt_trans with (1 := B ltac:(unfold v4dot, v3dot; cbn; lra)).
      unfold cloud_error, p, q, slab, one_up, shift, plane_at, move, se3_of_Rt, lsum. cbn [combine fold_right map fst snd]. lin_unfold. lra.
    + replace (in_frame one_up m4id) with (se3_of_Rt m3id v3zero) in L by (unfold in_frame, one_up, shift, se3_of_Rt, se3_inv, m4id; lin). rewrite ln_translation, exp_translation in L.
      destruct L as [(u & U & <-) _]. unfold cloud_error, p, q, slab, one_up, shift, plane_at, move, se3_of_Rt, lsum. cbn [combine fold_right map fst snd]. destruct u as [[a b c] d]. unfold unit4, v4dot, v3dot in U. cbn in U. lin_unfold.
      assert (Q : 36 * (a * a) + 36 * (b * b) + 11 * (c * c) + 18 * (c * d) + 9 * (d * d) >= 942/1000).
      { assert (36 * (a * a) + 36 * (b * b) + 11 * (c * c) + 18 * (c * d) + 9 * (d * d) - 942/1000 * (a * a + b * b + c * c + d * d) >= 0); [|rewrite U in *; lra].
        pose proof (Rle_0_sqr (10058/1000 * c + 9 * d)) as S. unfold Rsqr in S. nra. }
      lra.
Qed.
Print Assumptions C94_best_refuted.

(** two poses and a plane, in any frame *)
Lemma frame_shift G v : rigid G -> in_frame G (shift v) = shift (m3app (mR G) v).
Proof.
  intros ((O & D) & B & C). pose proof (rotation_rinv _ (conj O D)) as RI. destruct G as [RG tG bG cG]. cbn [mR mt mb mc] in *. subst bG cG.
  assert (E : m4mul (m4mul (mkM4 RG tG v3zero 1) (shift v)) (se3_inv (mkM4 RG tG v3zero 1)) = mkM4 (m3mul RG (m3tr RG)) (v3add (v3sub (m3app RG v) (m3app (m3mul RG (m3tr RG)) tG)) tG) v3zero 1).
  { unfold shift, se3_of_Rt, se3_inv. lin. }
  unfold in_frame. rewrite E, RI, m3app_id. unfold shift, se3_of_Rt. f_equal. generalize (m3app RG v). clear. intros w. lin.
Qed.
Example C94_ex : forall k G v, (forall Q, m4tr Q = Q -> exact4 (k_eigs k) Q) -> rigid G -> let ops := raised slab v3zero (shift v) in
  Forall reg_ok ops /\ (0 < poses_of ops)%nat /\ exists r r' e e' r1 r1', reg_run k ops preg_new = Some r /\ reg_run k (map (call_in_frame G) ops) preg_new = Some r' /\
  pr_traj r' = map (in_frame G) (pr_traj r) /\ get_current_error (k_eigs k) r = Some (e, r1) /\ get_current_error (k_eigs k) r' = Some (e', r1').
Proof.
  intros k G v X RG ops. split; [unfold ops, raised; repeat constructor|]. split; [unfold ops; rewrite raised_poses; lia|]. unfold ops. rewrite raised_frame, (frame_shift G v RG).
  destruct (raised_error k slab v3zero (shift v) X raised_used eq_refl eq_refl) as (r & e & r1 & E & H & _). set (p := map (move G) slab). set (q := move G v3zero).
  destruct (raised_error k p q (shift (m3app (mR G) v)) X eq_refl eq_refl eq_refl) as (r' & e' & r1' & E' & H' & _).
  exists r, r', e, e', r1, r1'. split; [exact E|]. split; [exact E'|]. split; [|auto].
  destruct (raised_run k slab v3zero (shift v)) as (r2 & E2 & T2). rewrite E in E2. injection E2 as <-. destruct (raised_run k p q (shift (m3app (mR G) v))) as (r3 & E3 & T3). rewrite E' in E3. injection E3 as <-. rewrite T2, T3.
  unfold shift. rewrite !ln_translation, !exp_translation. cbn [map].
  assert (S1 : forall w, se3_of_Rt m3id (v3scal 1 w) = shift w) by (intros w; unfold shift; f_equal; destruct w; lin). rewrite !S1, (frame_shift G v RG). f_equal.
  change m4id with (shift v3zero). rewrite (frame_shift G v3zero RG). unfold shift. f_equal. generalize (mR G). clear. intros A. lin.
Qed.
