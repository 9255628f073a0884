(** C63: time profiles. *)
Require Import ZArith Reals List String Lia Lra Bool.
From Verif Require Import Profiling.
Import ListNotations.
Local Open Scope Z_scope.

(** ** What the history says (latest call first) *)
Definition when (o : prof_op) : Z := match o with Reset n => n | Start n => n | Stop n _ => n end.
(** the last call of start or reset; the epoch if there was none *)
Fixpoint mark (rops : list prof_op) : Z :=
  match rops with
  | [] => 0
  | Stop _ _ :: r => mark r
  | o :: _ => when o
  end.
(** the calls of stop since the last reset, each with the time passed since the
    mark before it *)
Fixpoint laps (rops : list prof_op) : list (string * Z) :=
  match rops with
  | [] => []
  | Reset _ :: _ => []
  | Start _ :: r => laps r
  | Stop n k :: r => laps r ++ [(k, n - mark r)]
  end.
Definition zsum (l : list Z) : Z := fold_right Z.add 0 l.
Definition rsum (l : list R) : R := fold_right Rplus 0%R l.
(** the clock does not go back *)
Fixpoint monotone (from : Z) (ops : list prof_op) : Prop :=
  match ops with [] => True | o :: ops => from <= when o /\ monotone (when o) ops end.
(** each stop directly follows a start (or the opening reset) *)
Fixpoint paired (running : bool) (ops : list prof_op) : Prop :=
  match ops with
  | [] => True
  | Stop _ _ :: ops => running = true /\ paired false ops
  | _ :: ops => paired true ops
  end.
Definition no_reset (ops : list prof_op) : Prop := Forall (fun o => match o with Reset _ => False | _ => True end) ops.

Lemma run_snoc ops o : prof_run (ops ++ [o]) = prof_step (prof_run ops) o.
Proof. unfold prof_run. rewrite fold_left_app. reflexivity. Qed.
Lemma run_state ops : t1 (prof_run ops) = mark (rev ops) /\ time_profiles (prof_run ops) = map (fun q => (fst q, Z.quot (snd q) 1000)) (laps (rev ops)).
Proof.
  induction ops as [|o ops [A B]] using rev_ind; [split; reflexivity|]. rewrite run_snoc, rev_app_distr. cbn [rev app]. destruct o; cbn; auto.
  split; auto. rewrite map_app, A, B. reflexivity.
Qed.
Lemma total_sum p : total_time p = zsum (map snd (time_profiles p)).
Proof.
  unfold total_time. assert (H : forall l s, fold_left (fun s (t : string * Z) => s + snd t) l s = s + zsum (map snd l)).
  { induction l as [|a l IH]; intros s; cbn [fold_left map zsum fold_right]; [lia|]. rewrite IH. unfold zsum. lia. } rewrite H. lia.
Qed.

(** The total is the sum over the calls of stop since the last reset of the whole
    microseconds since the start before each. *)
Theorem C63_total : forall ops, total_time (prof_run ops) = zsum (map (fun q => Z.quot (snd q) 1000) (laps (rev ops))) /\
  map fst (time_profiles (prof_run ops)) = map fst (laps (rev ops)).
Proof. intros ops. rewrite total_sum, (proj2 (run_state ops)), !map_map. split; reflexivity. Qed.
Print Assumptions C63_total.
Example C63_total_ex : let ops := [Start 5; Stop 7005 "a"; Reset 8000; Start 9000; Stop 12500 "b"; Start 20000; Stop 21000 "c"]%string in
  laps (rev ops) = [("b", 3500); ("c", 1000)]%string /\ total_time (prof_run ops) = 4.
Proof. split; reflexivity. Qed.

Lemma zsum_app a b : zsum (a ++ b) = zsum a + zsum b.
Proof. unfold zsum. induction a; cbn; lia. Qed.
Lemma quot_bounds n : 0 <= n -> 1000 * Z.quot n 1000 <= n < 1000 * Z.quot n 1000 + 1000 /\ 0 <= Z.quot n 1000.
Proof. intros H. rewrite Z.quot_div_nonneg by lia. pose proof (Z.div_mod n 1000 ltac:(lia)). pose proof (Z.mod_pos_bound n 1000 ltac:(lia)). pose proof (Z.div_pos n 1000 H ltac:(lia)). lia. Qed.
Lemma last_cons (x : Z) l m : last (x :: l) m = last l x.
Proof. revert x m. induction l as [|y l IH]; intros x m; auto. change (last (x :: y :: l) m) with (last (y :: l) m). rewrite !IH. reflexivity. Qed.
(** state of the account after a, when the clock reads m *)
Lemma bounded : forall b a t0 running m, no_reset b -> paired running b -> monotone m b -> t0 <= m ->
  (exists s, 0 <= zsum (map (fun q => Z.quot (snd q) 1000) (laps a)) /\ t0 <= s <= m /\ 1000 * zsum (map (fun q => Z.quot (snd q) 1000) (laps a)) <= s - t0 /\ (running = true -> s <= mark a <= m)) ->
  0 <= zsum (map (fun q => Z.quot (snd q) 1000) (laps (rev b ++ a))) /\ 1000 * zsum (map (fun q => Z.quot (snd q) 1000) (laps (rev b ++ a))) <= last (map when b) m - t0.
Proof.
  induction b as [|o b IH]; intros a t0 running m NR P M L (s & S0 & S1 & S2 & S3); [cbn [rev app map last]; lia|]. destruct M as [M1 M2]. inversion NR as [|x y NR1 NR2]; subst.
  cbn [rev]. rewrite <- app_assoc. cbn [app]. replace (last (map when (o :: b)) m) with (last (map when b) (when o)).
  2:{ symmetry. apply (last_cons (when o) (map when b) m). }
  destruct o as [n|n|n k]; [destruct NR1| |]; cbn [paired when] in *.
  - apply (IH (Start n :: a) t0 true n NR2 P M2 ltac:(lia)). exists s. cbn [laps mark when]. repeat split; auto; lia.
  - destruct P as [-> P]. specialize (S3 eq_refl). apply (IH (Stop n k :: a) t0 false n NR2 P M2 ltac:(lia)). exists n. cbn [laps mark].
    rewrite map_app, zsum_app. cbn [map zsum fold_right snd]. destruct (quot_bounds (n - mark a) ltac:(lia)) as [[Q1 Q2] Q3]. repeat split; try lia.
Qed.
(** With a clock that does not go back and a start before each stop, the total
    since a reset is between zero and the time elapsed since then. *)
Theorem C63_within_elapsed : forall a b t0, no_reset b -> paired true b -> monotone t0 b ->
  0 <= total_time (prof_run (a ++ Reset t0 :: b)) /\ 1000 * total_time (prof_run (a ++ Reset t0 :: b)) <= last (map when b) t0 - t0.
Proof.
  intros a b t0 NR P M. rewrite (proj1 (C63_total _)), rev_app_distr. cbn [rev]. rewrite <- app_assoc. cbn [app].
  apply (bounded b (Reset t0 :: rev a) t0 true t0 NR P M ltac:(lia)). exists t0. cbn [laps mark when map zsum fold_right]. repeat split; lia.
Qed.
Print Assumptions C63_within_elapsed.
Example C63_within_ex : let b := [Stop 1500 "a"; Start 2000; Stop 9000 "b"]%string in no_reset b /\ paired true b /\ monotone 0 b /\ total_time (prof_run (Reset 0 :: b)) = 8.
Proof. cbn. repeat split; try lia. repeat constructor. Qed.
(** Each stop loses less than a microsecond. *)
Theorem C63_precision : forall ops, Forall (fun q => 0 <= snd q) (laps (rev ops)) ->
  let exact := zsum (map snd (laps (rev ops))) in
  1000 * total_time (prof_run ops) <= exact <= 1000 * total_time (prof_run ops) + 999 * Z.of_nat (List.length (laps (rev ops))).
Proof.
  intros ops F. cbv zeta. rewrite (proj1 (C63_total ops)). induction F as [|q l H F IH]; [cbn; lia|]. cbn [map zsum fold_right List.length]. fold (zsum (map snd l)) (zsum (map (fun q => Z.quot (snd q) 1000) l)).
  destruct (quot_bounds (snd q) H). rewrite Nat2Z.inj_succ. lia.
Qed.
Print Assumptions C63_precision.
(** Full statement, false in the code: stop does not restart the clock, so two
    stops in a row count the same time twice and the total exceeds the time
    elapsed. *)
Theorem C63_overlap_refuted : exists t0 b, no_reset b /\ monotone t0 b /\ last (map when b) t0 - t0 < 1000 * total_time (prof_run (Reset t0 :: b)).
Proof. exists 0, [Stop 5000 ""; Stop 6000 ""]%string. split; [repeat constructor|]. split; [cbn; lia | vm_compute; reflexivity]. Qed.
Print Assumptions C63_overlap_refuted.
(** And without a start the time since the epoch of the clock is counted. *)
Theorem C63_no_start : forall t k, total_time (prof_run [Stop t k]) = Z.quot t 1000.
Proof. intros. cbn. f_equal. lia. Qed.
Print Assumptions C63_no_start.

(** The percentages printed add up to 100; they are not numbers when the total is
    zero (nothing recorded, or less than a microsecond each). *)
Lemma rsum_scal l c : rsum (map (fun x => (x * c)%R) l) = (rsum l * c)%R.
Proof. induction l as [|a l IH]; cbn; [ring|]. unfold rsum in IH. rewrite IH. ring. Qed.
Lemma rsum_zsum l : rsum (map IZR l) = IZR (zsum l).
Proof. induction l as [|a l IH]; cbn; auto. unfold rsum, zsum in *. rewrite IH, plus_IZR. reflexivity. Qed.
Theorem C63_shares : forall p, (shares p = None <-> total_time p = 0) /\
  (forall l, shares p = Some l -> map fst l = map fst (time_profiles p) /\ rsum (map snd l) = 100%R).
Proof.
  intros p. unfold shares. destruct (Z.eqb_spec (total_time p) 0) as [E|E]; split; try tauto; try (split; intros; congruence).
  intros l H. injection H as <-. rewrite !map_map. cbn [fst snd]. split; auto.
  rewrite (map_ext _ (fun q => (IZR (snd q) * (/ IZR (total_time p) * 100))%R)) by (intros; unfold Rdiv; ring).
  rewrite <- (map_map (fun q => IZR (snd q)) (fun x => (x * (/ IZR (total_time p) * 100))%R)), rsum_scal, <- (map_map snd IZR), rsum_zsum, <- total_sum. field. apply not_0_IZR. auto.
Qed.
Print Assumptions C63_shares.
Example C63_shares_ex : shares (prof_run [Reset 0; Stop 3000 "a"; Start 4000; Stop 5000 "b"]%string) <> None /\ shares (prof_run [Reset 0; Stop 999 "a"]%string) = None.
Proof. split; [|reflexivity]. intros H. apply C63_shares in H. discriminate H. Qed.
