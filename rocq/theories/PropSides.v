(** C104: parts of a graph that share only anchors are uncorrelated. *)
Require Import Reals List Arith Lia Lra Bool Permutation.
From Verif Require Import Lin LinFacts SpecGeom Nodes NodesProofs Robust Graph GraphProofs Sums Solve SpecSolve SolveFrame SolveSums SolveBuild SolveProofs Session SessionProofs.
From Verif Require Import Factors SpecFactors FactorsSession FrameSolve SpecFrame PropFrame SpecSolvable SolvableSession SpecMapping MappingSession LMMapping SpecReorder Reorder ReorderSolve PropSolvable SpecFixed Fixed SpecTree Tree SpecParts Parts PropParts SpecChain Chain Grow Gauss SpecPin PropPin Alike PropWorth.
Import ListNotations.
Local Open Scope R_scope.

(** the nodes are on two sides, and no measurement joins nodes of both, anchors aside *)
Definition two_sides (side : nat -> bool) (cs : list pycall) : Prop :=
  forall c i j m m' v v', In c cs -> In i (touches c) -> In j (touches c) -> nth_error (nodes_of cs) i = Some (m, v) -> nth_error (nodes_of cs) j = Some (m', v') ->
  m <> ANCHOR -> m' <> ANCHOR -> side i = side j.

Section Sides.
Variables (rob : robust_type) (cs : list pycall) (w : world) (side : nat -> bool).
Hypothesis (V : inv rob cs w) (P : Forall call_info cs) (NR : rob <> RANSAC) (Sd : two_sides side cs).
Let n := g_stateDim (w_graph w).
Lemma sided y : exists z, forall i k, (i < length (nodes_of cs))%nat -> (k < nval_dim (state_of w i))%nat -> inc_of w z i k = if side i then inc_of w y i k else 0.
Proof using V.
  destruct (dir_vector rob cs w (fun i k => if side i then inc_of w y i k else 0) V) as [z Z]; [|exists z; exact Z]. intros i v k Ei. destruct (side i); auto. apply (anchor_inc rob cs w i v y k V Ei).
Qed.
Lemma sided_form y z : (forall i k, (i < length (nodes_of cs))%nat -> (k < nval_dim (state_of w i))%nat -> inc_of w z i k = if side i then inc_of w y i k else 0) -> gn_form w z y = gn_form w z z.
Proof using V P NR Sd.
  intros Z. rewrite !(facts_form rob cs w V P NR). apply lsum_ext. intros [[cl ids] W] If. apply in_flat_map in If. destruct If as (c & Ic & If). unfold facts in If. destruct (call_factor c) as [[[cl' ids'] W']|] eqn:Ec; [|destruct If]. destruct If as [If|[]]. injection If as -> -> ->.
  pose proof (ids_below rob cs w c cl ids W V Ic Ec) as Lt. assert (Tc : touches c = ids) by (unfold touches; rewrite Ec; reflexivity). unfold f_f. f_equal.
  set (free := fun i => match nth_error (nodes_of cs) i with Some (ANCHOR, _) => false | _ => true end).
  assert (An : forall i x k, free i = false -> inc_of w x i k = 0). { intros i x k Fi. unfold free in Fi. destruct (nth_error (nodes_of cs) i) as [[m v]|] eqn:E; [|discriminate]. destruct m; try discriminate. apply (anchor_inc rob cs w i v x k V E). }
  destruct (existsb (fun i => free i && side i) ids) eqn:X.
  - apply existsb_exists in X. destruct X as (i & Ii & Fi). apply andb_prop in Fi. destruct Fi as [Fi Si]. apply quad_ext; [reflexivity|]. intros r _. apply f_jd_ext. intros j k Ij Hk. rewrite (Z j k (Lt j Ij) Hk).
    destruct (free j) eqn:Fj; [|rewrite (An j y k Fj); destruct (side j); reflexivity].
    assert (Q : side i = side j). { unfold free in Fi, Fj. pose proof (Lt i Ii) as Hi. pose proof (Lt j Ij) as Hj. destruct (nth_error (nodes_of cs) i) as [[m v]|] eqn:Ei; [|apply nth_error_None in Ei; lia]. destruct (nth_error (nodes_of cs) j) as [[m' v']|] eqn:Ej; [|apply nth_error_None in Ej; lia].
      apply (Sd c i j m m' v v' Ic); rewrite ?Tc; auto; intros ->; discriminate. }
    rewrite <- Q, Si. reflexivity.
  - rewrite !quad_still; auto; intros r; apply still_jd; intros j k Ij Hk; rewrite (Z j k (Lt j Ij) Hk); destruct (side j) eqn:Sj; auto; apply An;
    (destruct (free j) eqn:Fj; auto; assert (existsb (fun i => free i && side i) ids = true) by (apply existsb_exists; exists j; rewrite Fj, Sj; auto); congruence).
Qed.
Lemma sided_dot g v x : combination w g v -> (forall i k, side i = false -> g i k = 0) -> forall z, (forall i k, (i < length (nodes_of cs))%nat -> (k < nval_dim (state_of w i))%nat -> inc_of w z i k = if side i then inc_of w x i k else 0) -> dot n v x = dot n v z.
Proof using V.
  intros K G z Z. unfold n. rewrite !(act_dot rob cs w V). apply lsum_ext. intros i I. apply (act_iff rob cs w V) in I. destruct I as (m & u & E & NA). assert (Hi : (i < length (nodes_of cs))%nat) by (apply nth_error_Some; congruence).
  apply sumn_ext. intros k Hk. rewrite (Z i k Hi Hk). destruct (side i) eqn:S; auto. rewrite (combination_inc rob cs w g v i m u k V K E Hk). rewrite (G i k S). destruct m; ring.
Qed.
Lemma other_dot h u x z : combination w h u -> (forall i k, side i = true -> h i k = 0) -> (forall i k, (i < length (nodes_of cs))%nat -> (k < nval_dim (state_of w i))%nat -> inc_of w z i k = if side i then inc_of w x i k else 0) -> dot n z u = 0.
Proof using V.
  intros K H Z. unfold n. rewrite (act_dot rob cs w V). apply lsum_zero. intros i I. apply (act_iff rob cs w V) in I. destruct I as (m & v & E & NA). assert (Hi : (i < length (nodes_of cs))%nat) by (apply nth_error_Some; congruence).
  apply sumn_zero. intros k Hk. rewrite (Z i k Hi Hk). destruct (side i) eqn:S; [|ring]. rewrite (combination_inc rob cs w h u i m v k V K E Hk). rewrite (H i k S). destruct m; ring.
Qed.
End Sides.

(** *** What is measured about one side says nothing about the errors of the other *)
Theorem C104_uncorrelated : forall lin rob side cs s, rob <> RANSAC -> typed [] cs -> Forall call_info cs -> two_sides side cs -> pycalls lin rob (solver_new world_new) cs = Some s ->
  exists b, build_problem false s = Some b /\ let n := g_stateDim (w_graph (s_w s)) in forall C, inverse_of n (s_L b) C -> forall g h v u, combination (s_w s) g v -> combination (s_w s) h u ->
  (forall i k, side i = false -> g i k = 0) -> (forall i k, side i = true -> h i k = 0) -> quad n C v u = 0.
Proof.
  intros lin rob side cs s NR T P Sd E. destruct (build_forms lin rob cs s T P NR E) as (b & Eb & V & _ & _ & F & Sy & Ps). exists b. split; [exact Eb|]. clear E Eb. cbv zeta. set (n := g_stateDim (w_graph (s_w s))) in *. intros C I g h v u K Kh G H.
  pose proof (inverse_nonsingular n (s_L b) C Sy I) as NS. assert (Qa : quad n C v u = dot n v (fun i => sumn n (fun j => C i j * u j))) by (unfold quad, dot; apply sumn_ext; intros i _; rewrite sumn_mult_l; apply sumn_ext; intros; ring).
  rewrite Qa. set (y := fun i => sumn n (fun j => C i j * u j)). destruct (sided rob cs (s_w s) side V y) as [z Z].
  assert (Zf : form n (s_L b) z z = 0). { rewrite F, <- (sided_form rob cs (s_w s) side V P NR Sd y z Z), <- F. unfold y. rewrite (inverse_form n (s_L b) C z u I). apply (other_dot rob cs (s_w s) side V h u y z Kh H Z). }
  pose proof (NS z (form_kernel n (s_L b) z Sy Ps Zf)) as Z0. unfold n. rewrite (sided_dot rob cs (s_w s) side V g v y K G z Z). unfold dot. apply sumn_zero. intros i Hi. rewrite (Z0 i Hi). ring.
Qed.
Print Assumptions C104_uncorrelated.
(** *** so the variance of a difference between the sides is the sum of the variances *)
Theorem C104_difference : forall lin rob side cs s, rob <> RANSAC -> typed [] cs -> Forall call_info cs -> two_sides side cs -> pycalls lin rob (solver_new world_new) cs = Some s ->
  exists b, build_problem false s = Some b /\ let n := g_stateDim (w_graph (s_w s)) in forall C, inverse_of n (s_L b) C -> forall g h v u d, combination (s_w s) g v -> combination (s_w s) h u -> combination (s_w s) (fun i k => g i k - h i k) d ->
  (forall i k, side i = false -> g i k = 0) -> (forall i k, side i = true -> h i k = 0) -> quad n C d d = quad n C v v + quad n C u u.
Proof.
  intros lin rob side cs s NR T P Sd E. destruct (C104_uncorrelated lin rob side cs s NR T P Sd E) as (b & Eb & Q).
  assert (Sd' : two_sides (fun i => negb (side i)) cs). { intros c i j m m' v v' Ic Ii Ij Ei Ej Mi Mj. f_equal. exact (Sd c i j m m' v v' Ic Ii Ij Ei Ej Mi Mj). }
  destruct (C104_uncorrelated lin rob (fun i => negb (side i)) cs s NR T P Sd' E) as (b' & Eb' & Q'). rewrite Eb in Eb'. injection Eb' as <-. destruct (build_forms lin rob cs s T P NR E) as (b0 & _ & V & _).
  exists b. split; [exact Eb|]. clear E Eb. cbv zeta in *. intros C I g h v u d K Kh Kd G H.
  assert (A := Q C I g h v u K Kh G H). assert (B : quad (g_stateDim (w_graph (s_w s))) C u v = 0) by (apply (Q' C I h g u v Kh K); intros i k Si; [apply H; destruct (side i); auto; discriminate|apply G; destruct (side i); auto; discriminate]).
  assert (D : forall p, (p < g_stateDim (w_graph (s_w s)))%nat -> d p = v p - u p).
  { intros p Hp. rewrite (wf_state _ (gd_wf _ (iv_good _ _ _ V))) in Hp. destruct (pack_split _ _ _ Hp) as (m & l & k & M & Hk & ->). change (d (col (s_w s) m + k)%nat = v (col (s_w s) m + k)%nat - u (col (s_w s) m + k)%nat). rewrite (K m l k M Hk), (Kh m l k M Hk). apply (Kd m l k M Hk). }
  set (n := g_stateDim (w_graph (s_w s))) in *. rewrite (quad_ext n C d d (fun p => v p - u p) (fun p => v p - u p) D D).
  transitivity (quad n C v v - quad n C v u - quad n C u v + quad n C u u); [|rewrite A, B; ring]. unfold quad. unfold Rminus. rewrite <- !sumn_opp, <- !sumn_plus. apply sumn_ext. intros i _. rewrite <- !sumn_opp, <- !sumn_plus. apply sumn_ext. intros; ring.
Qed.
Print Assumptions C104_difference.

Lemma act_nodup rob cs w : inv rob cs w -> NoDup (act_ids w).
Proof. intros V. apply (wf_ids _ (gd_wf _ (iv_good _ _ _ V))). Qed.
Section Alone.
Variables (rob : robust_type) (p : nat -> nat) (cs1 cs : list pycall) (w1 w : world).
Hypothesis (V1 : inv rob cs1 w1) (V : inv rob cs w) (Po : part_of p cs1 cs) (St : forall i, (i < length (nodes_of cs1))%nat -> state_of w (p i) = state_of w1 i).
Let n := length (nodes_of cs1).
Definition elsewhere_zero (z : nat -> R) : Prop := forall j k, (j < length (nodes_of cs))%nat -> (k < nval_dim (state_of w j))%nat -> (forall i, (i < n)%nat -> p i <> j) -> inc_of w z j k = 0.
Lemma part_dot z z1 x x1 : agree_d p n (state_of w1) (inc_of w1 z1) (inc_of w z) -> agree_d p n (state_of w1) (inc_of w1 x1) (inc_of w x) -> elsewhere_zero z -> dot (g_stateDim (w_graph w)) z x = dot (g_stateDim (w_graph w1)) z1 x1.
Proof using V1 V Po St.
  intros Az Ax Out. rewrite (act_dot rob cs w V), (act_dot rob cs1 w1 V1).
  set (within := fun j => existsb (fun i => Nat.eqb (p i) j) (seq 0 n)).
  assert (In_w : forall j, within j = true <-> exists i, (i < n)%nat /\ p i = j). { intros j. unfold within. rewrite existsb_exists. split; [intros (i & I & Q); apply in_seq in I; apply Nat.eqb_eq in Q; exists i; split; [lia|exact Q]|intros (i & I & Q); exists i; split; [apply in_seq; lia|apply Nat.eqb_eq, Q]]. }
  assert (L1 : forall i, In i (act_ids w1) -> (i < n)%nat) by (intros i I; apply (act_iff rob cs1 w1 V1) in I; destruct I as (m & v & E & _); apply nth_error_Some; congruence).
  assert (Pe : Permutation (act_ids w) (map p (act_ids w1) ++ filter (fun j => negb (within j)) (act_ids w))).
  { apply NoDup_Permutation.
    - apply (act_nodup rob cs w V).
    - apply SolveIndex.NoDup_app_intro.
      + pose proof (act_nodup rob cs1 w1 V1) as ND. revert L1 ND. generalize (act_ids w1). induction l as [|i l IH]; intros Lt ND; cbn; constructor.
        * intros I. apply in_map_iff in I. destruct I as (j & Q & Ij). inversion ND as [|? ? N _]; subst. apply N. rewrite <- (po_apart _ _ _ Po j i); auto; apply Lt; cbn; auto.
        * apply IH; [intros; apply Lt; cbn; auto|inversion ND; auto].
      + apply NoDup_filter, (act_nodup rob cs w V).
      + intros j I J. apply in_map_iff in I. destruct I as (i & <- & Ii). apply filter_In in J. destruct J as [_ J]. rewrite (proj2 (In_w (p i))) in J; [discriminate|exists i; auto].
    - intros j. rewrite in_app_iff, in_map_iff, filter_In. split.
      + intros I. destruct (within j) eqn:Q; [left|right; auto]. apply In_w in Q. destruct Q as (i & Hi & <-). exists i. split; auto. apply (act_iff rob cs1 w1 V1). apply (act_iff rob cs w V) in I. destruct I as (m & v & E & NA).
        destruct (nth_error (nodes_of cs1) i) as [[m1 v1]|] eqn:E1; [|apply nth_error_None in E1; unfold n in Hi; lia]. destruct (po_node _ _ _ Po i m1 v1 E1) as [v' E']. rewrite E in E'. injection E' as <- <-. eauto.
      + intros [(i & <- & I)|[I _]]; auto. apply (act_iff rob cs1 w1 V1) in I. destruct I as (m & v & E & NA). destruct (po_node _ _ _ Po i m v E) as [v' E']. apply (act_iff rob cs w V). eauto. }
  rewrite (DenseProofs.lsum_perm _ _ _ Pe), lsum_app, lsum_map, (lsum_zero (filter _ _)).
  - rewrite Rplus_0_r. apply lsum_ext. intros i I. pose proof (L1 i I) as Hi. rewrite (St i Hi). apply sumn_ext. intros k Hk. rewrite (Az i k Hi Hk), (Ax i k Hi Hk). reflexivity.
  - intros j J. apply filter_In in J. destruct J as [J Q]. apply (act_iff rob cs w V) in J. destruct J as (m & v & E & _). apply sumn_zero. intros k Hk. rewrite (Out j k); [ring| |exact Hk|]. { apply nth_error_Some. congruence. } intros i Hi E'. rewrite (proj2 (In_w j)) in Q; [discriminate|exists i; auto].
Qed.
Lemma part_combination g g1 v v1 : combination w g v -> combination w1 g1 v1 -> (forall i k, (i < n)%nat -> g (p i) k = g1 i k) -> (forall j k, (forall i, (i < n)%nat -> p i <> j) -> g j k = 0) ->
  agree_d p n (state_of w1) (inc_of w1 v1) (inc_of w v) /\ elsewhere_zero v.
Proof using V1 V Po St.
  intros K K1 G G0. split.
  - intros i k Hi Hk. destruct (nth_error (nodes_of cs1) i) as [[m u]|] eqn:E; [|apply nth_error_None in E; unfold n in Hi; lia]. destruct (po_node _ _ _ Po i m u E) as [u' E'].
    rewrite (combination_inc rob cs1 w1 g1 v1 i m u k V1 K1 E Hk). rewrite (combination_inc rob cs w g v (p i) m u' k V K E'); [rewrite G by auto; reflexivity|]. rewrite (St i Hi). exact Hk.
  - intros j k Hj Hk N. destruct (nth_error (nodes_of cs) j) as [[m u]|] eqn:E; [|apply nth_error_None in E; lia]. rewrite (combination_inc rob cs w g v j m u k V K E Hk), (G0 j k N). destruct m; reflexivity.
Qed.
End Alone.
(** *** and the uncertainty of a part is the one it has alone *)
Theorem C104_alone : forall lin lin1 rob p cs1 cs s1 s, rob <> RANSAC -> typed [] cs1 -> typed [] cs -> Forall call_info cs1 -> Forall call_info cs -> part_of p cs1 cs -> Forall (order_kept p) cs1 ->
  pycalls lin1 rob (solver_new world_new) cs1 = Some s1 -> pycalls lin rob (solver_new world_new) cs = Some s -> (forall i, (i < length (nodes_of cs1))%nat -> state_of (s_w s) (p i) = state_of (s_w s1) i) ->
  exists b1 b, build_problem false s1 = Some b1 /\ build_problem false s = Some b /\ let n1 := g_stateDim (w_graph (s_w s1)) in let n := g_stateDim (w_graph (s_w s)) in
  forall C1 C, inverse_of n1 (s_L b1) C1 -> inverse_of n (s_L b) C -> forall g1 h1 g h v1 u1 v u, combination (s_w s1) g1 v1 -> combination (s_w s1) h1 u1 -> combination (s_w s) g v -> combination (s_w s) h u ->
  (forall i k, (i < length (nodes_of cs1))%nat -> g (p i) k = g1 i k /\ h (p i) k = h1 i k) -> (forall j k, (forall i, (i < length (nodes_of cs1))%nat -> p i <> j) -> g j k = 0 /\ h j k = 0) -> quad n C v u = quad n1 C1 v1 u1.
Proof.
  intros lin lin1 rob p cs1 cs s1 s NR T1 T P1 P Po O E1 E St. destruct (build_forms lin1 rob cs1 s1 T1 P1 NR E1) as (b1 & Eb1 & V1 & _ & _ & F1 & Sy1 & _). destruct (build_forms lin rob cs s T P NR E) as (b & Eb & V & _ & _ & F & Sy & _).
  exists b1, b. split; [exact Eb1|]. split; [exact Eb|]. clear E1 E Eb1 Eb. cbv zeta. set (n1 := g_stateDim (w_graph (s_w s1))) in *. set (n := g_stateDim (w_graph (s_w s))) in *.
  intros C1 C I1 I g1 h1 g h v1 u1 v u K1 Kh1 K Kh G G0. pose proof (inverse_nonsingular n (s_L b) C Sy I) as NS.
  destruct (part_combination rob p cs1 cs (s_w s1) (s_w s) V1 V Po St g g1 v v1 K K1) as [Av Ov]; [intros; apply G; auto|intros; apply G0; auto|].
  destruct (part_combination rob p cs1 cs (s_w s1) (s_w s) V1 V Po St h h1 u u1 Kh Kh1) as [Au Ou]; [intros; apply G; auto|intros; apply G0; auto|].
  assert (Qa : forall m A x z, quad m A x z = dot m x (fun i => sumn m (fun j => A i j * z j))) by (intros m A x z; unfold quad, dot; apply sumn_ext; intros i _; rewrite sumn_mult_l; apply sumn_ext; intros; ring).
  rewrite !Qa. set (y := fun i => sumn n (fun j => C i j * u j)). set (z1 := fun i => sumn n1 (fun j => C1 i j * u1 j)). destruct (part_extend rob p cs1 cs (s_w s1) (s_w s) V1 V Po St z1) as (z & Az & Oz).
  assert (Ez : forall i, (i < n)%nat -> y i = z i).
  { apply (nonsingular_unique n (s_L b) y z NS). intros i Hi. rewrite (unit_rows n (s_L b) y u); auto; [|intros x; apply inverse_form, I]. symmetry. apply unit_rows; auto. intros x. destruct (part_restrict rob p cs1 cs (s_w s1) (s_w s) V1 V Po x) as [x1 Ax].
    rewrite Sy, F. rewrite (proj1 (part_sums rob p cs1 cs (s_w s1) (s_w s) NR P1 P V1 V Po O St z z1 x x1 Az Ax Oz)), <- F1, Sy1. unfold z1. rewrite (inverse_form n1 (s_L b1) C1 x1 u1 I1), (dot_comm n x u), (dot_comm n1 x1 u1). symmetry. apply (part_dot rob p cs1 cs (s_w s1) (s_w s) V1 V Po St u u1 x x1 Au Ax Ou). }
  transitivity (dot n v z). { unfold dot. apply sumn_ext. intros i Hi. rewrite (Ez i Hi). reflexivity. }
  apply (part_dot rob p cs1 cs (s_w s1) (s_w s) V1 V Po St v v1 z z1 Av Az Ov).
Qed.
Print Assumptions C104_alone.

(** a pose and a landmark, each measured from the same anchored pose *)
Definition landmark_side (i : nat) : bool := Nat.eqb i 2.
Lemma whole_sides : two_sides landmark_side whole_calls.
Proof.
  intros c i j m m' v v' Ic Ii Ij Ei Ej Mi Mj. cbn in Ic. repeat (destruct Ic as [<-|Ic]; [cbn in Ii, Ij; try contradiction; repeat (destruct Ii as [<-|Ii]; [|try contradiction]); repeat (destruct Ij as [<-|Ij]; [|try contradiction]); try reflexivity; cbn in Ei, Ej; injection Ei as <- _; injection Ej as <- _; congruence|]). destruct Ic.
Qed.
Example C104_ex : forall rob, rob <> RANSAC -> typed [] whole_calls /\ Forall call_info whole_calls /\ two_sides landmark_side whole_calls /\
  exists s b C, pycalls gauss rob (solver_new world_new) whole_calls = Some s /\ build_problem false s = Some b /\ inverse_of (g_stateDim (w_graph (s_w s))) (s_L b) C /\
  forall k q, exists v u, combination (s_w s) (fun i r => if landmark_side i then if Nat.eqb r k then 1 else 0 else 0) v /\ combination (s_w s) (fun i r => if landmark_side i then 0 else if Nat.eqb r q then 1 else 0) u /\ quad (g_stateDim (w_graph (s_w s))) C v u = 0.
Proof.
  intros rob NR. assert (T : typed [] whole_calls) by (cbn; repeat split; auto; discriminate). assert (P : Forall call_info whole_calls) by (repeat (apply Forall_cons; [first [exact I | exact (id3_proper _)]|]); apply Forall_nil).
  split; [exact T|]. split; [exact P|]. split; [exact whole_sides|]. destruct (C80_held gauss rob whole_calls NR T) as (s & b & E & Eb & NS); auto.
  - repeat (apply Forall_cons; [exact I|]); apply Forall_nil.
  - assert (H0 : held whole_calls 0) by (eapply held_anchor; reflexivity). intros [|[|[|i]]] Hi; [exact H0| | |cbn in Hi; lia].
    + eapply held_2poses2d; [do 3 right; left; reflexivity|apply id_positive|exact H0].
    + eapply held_landmark2d; [do 4 right; left; reflexivity|apply id_positive|exact H0].
  - destruct (C104_uncorrelated gauss rob landmark_side whole_calls s NR T P whole_sides E) as (b0 & Eb0 & Q). rewrite Eb in Eb0. injection Eb0 as <-. destruct (inverse_exists _ _ NS) as [C IC]. exists s, b, C. repeat (split; [assumption|]). intros k q.
    pose proof (combination_exists (s_w s) (fun i r => if landmark_side i then if Nat.eqb r k then 1 else 0 else 0)) as K. pose proof (combination_exists (s_w s) (fun i r => if landmark_side i then 0 else if Nat.eqb r q then 1 else 0)) as K'.
    do 2 eexists. split; [exact K|]. split; [exact K'|]. apply (Q C IC _ _ _ _ K K'); intros i r Si; rewrite Si; reflexivity.
Qed.
(** the landmark has the same uncertainty in the graph without the other pose *)
Example C104_ex_alone : forall rob, rob <> RANSAC -> exists s1 s b1 b C1 C, pycalls gauss rob (solver_new world_new) part_calls = Some s1 /\ pycalls gauss rob (solver_new world_new) whole_calls = Some s /\ build_problem false s1 = Some b1 /\ build_problem false s = Some b /\
  inverse_of (g_stateDim (w_graph (s_w s1))) (s_L b1) C1 /\ inverse_of (g_stateDim (w_graph (s_w s))) (s_L b) C /\
  forall k, exists v1 v, combination (s_w s1) (fun i r => if Nat.eqb i 1 then if Nat.eqb r k then 1 else 0 else 0) v1 /\ combination (s_w s) (fun i r => if Nat.eqb i 2 then if Nat.eqb r k then 1 else 0 else 0) v /\
  quad (g_stateDim (w_graph (s_w s))) C v v = quad (g_stateDim (w_graph (s_w s1))) C1 v1 v1.
Proof.
  intros rob NR. assert (T1 : typed [] part_calls) by (cbn; repeat split; auto; discriminate). assert (T : typed [] whole_calls) by (cbn; repeat split; auto; discriminate).
  assert (P1 : Forall call_info part_calls) by (repeat (apply Forall_cons; [first [exact I | exact (id3_proper _)]|]); apply Forall_nil). assert (P : Forall call_info whole_calls) by (repeat (apply Forall_cons; [first [exact I | exact (id3_proper _)]|]); apply Forall_nil).
  assert (So1 : Forall solid_call part_calls) by (repeat (apply Forall_cons; [exact I|]); apply Forall_nil). assert (So : Forall solid_call whole_calls) by (repeat (apply Forall_cons; [exact I|]); apply Forall_nil).
  assert (Hd1 : forall i, (i < length (nodes_of part_calls))%nat -> held part_calls i).
  { assert (H0 : held part_calls 0) by (eapply held_anchor; reflexivity). intros [|[|i]] Hi; [exact H0| |cbn in Hi; lia]. eapply held_landmark2d; [do 2 right; left; reflexivity|apply id_positive|exact H0]. }
  assert (Hd : forall i, (i < length (nodes_of whole_calls))%nat -> held whole_calls i).
  { assert (H0 : held whole_calls 0) by (eapply held_anchor; reflexivity). intros [|[|[|i]]] Hi; [exact H0| | |cbn in Hi; lia]; [eapply held_2poses2d; [do 3 right; left; reflexivity|apply id_positive|exact H0]|eapply held_landmark2d; [do 4 right; left; reflexivity|apply id_positive|exact H0]]. }
  assert (Pt : part_of part_id part_calls whole_calls).
  { constructor.
    + intros [|[|[|i]]] m v Ei; try discriminate; injection Ei as <- <-; eexists; reflexivity.
    + intros [|i] [|j] Hi Hj J; try discriminate; auto; injection J as ->; reflexivity.
    + exists [C2Poses2d (mkV3 2 0 0) 0 1 id3 false]. split; [cbn; apply perm_swap|]. intros c [|i] [<-|[]] Hi J; [eexists; reflexivity|]. cbn in J. destruct J as [J|[J|[]]]; discriminate. }
  assert (Or : Forall (order_kept part_id) part_calls) by (repeat (apply Forall_cons; [first [exact I | cbn; lia]|]); apply Forall_nil).
  assert (Run1 : exists s, pycalls gauss rob (solver_new world_new) part_calls = Some s /\ state_of (s_w s) 0 = P2 (mkV3 0 0 0) /\ state_of (s_w s) 1 = L2 2 1) by (eexists; split; [cbv -[id3 IZR res_landmark2d jac_landmark2d lvec lmat l3 R0 R1]; reflexivity|split; reflexivity]).
  assert (Run : exists s, pycalls gauss rob (solver_new world_new) whole_calls = Some s /\ state_of (s_w s) 0 = P2 (mkV3 0 0 0) /\ state_of (s_w s) 2 = L2 2 1) by (eexists; split; [cbv -[id3 IZR res_2poses2d jac_2poses2d res_landmark2d jac_landmark2d lvec lmat l3 R0 R1]; reflexivity|split; reflexivity]).
  destruct Run1 as (s1 & E1 & A0 & A1). destruct Run as (s & E & B0 & B2).
  assert (St : forall i, (i < length (nodes_of part_calls))%nat -> state_of (s_w s) (part_id i) = state_of (s_w s1) i) by (clear - A0 A1 B0 B2; intros [|[|i]] Hi; [| |cbn in Hi; lia]; cbn [part_id]; congruence).
  destruct (C104_alone gauss gauss rob part_id part_calls whole_calls s1 s NR T1 T P1 P Pt Or E1 E St) as (b1 & b & Eb1 & Eb & Q).
  destruct (C80_held gauss rob part_calls NR T1 So1 P1 Hd1) as (s0 & b0 & E0 & Eb0 & NS1). rewrite E1 in E0. injection E0 as <-. rewrite Eb1 in Eb0. injection Eb0 as <-.
  destruct (C80_held gauss rob whole_calls NR T So P Hd) as (s0 & b0 & E0 & Eb0 & NS).
  rewrite E in E0. injection E0 as <-. rewrite Eb in Eb0. injection Eb0 as <-.
  destruct (inverse_exists _ _ NS1) as [C1 I1]. destruct (inverse_exists _ _ NS) as [C IC]. exists s1, s, b1, b, C1, C. split; [exact E1|]. split; [exact E|]. split; [exact Eb1|]. split; [exact Eb|]. split; [exact I1|]. split; [exact IC|]. clear - Q I1 IC. intros k.
  pose proof (combination_exists (s_w s1) (fun i r => if Nat.eqb i 1 then if Nat.eqb r k then 1 else 0 else 0)) as K1. pose proof (combination_exists (s_w s) (fun i r => if Nat.eqb i 2 then if Nat.eqb r k then 1 else 0 else 0)) as K.
  do 2 eexists. split; [exact K1|]. split; [exact K|]. apply (Q C1 C I1 IC _ _ _ _ _ _ _ _ K1 K1 K K).
  - intros [|[|i]] r Hi; [| |cbn in Hi; lia]; split; reflexivity.
  - intros j r N. destruct (Nat.eqb_spec j 2) as [->|]; [|split; reflexivity]. exfalso. apply (N 1%nat); [cbn; lia|reflexivity].
Qed.
