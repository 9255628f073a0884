(** Finite sums used by the solver models and specifications. *)
Require Import Reals List Arith Lia Lra.
Import ListNotations.
Local Open Scope R_scope.

(** sum of f 0 .. f (n-1) *)
Fixpoint sumn (n : nat) (f : nat -> R) : R :=
  match n with O => 0 | S m => sumn m f + f m end.
Definition lsum {A} (l : list A) (f : A -> R) : R := fold_right (fun a s => f a + s) 0 l.

Lemma sumn_ext n f g : (forall i, (i < n)%nat -> f i = g i) -> sumn n f = sumn n g.
Proof. induction n; intros H; cbn; auto. rewrite IHn, H; auto. Qed.
Lemma sumn_plus n f g : sumn n (fun i => f i + g i) = sumn n f + sumn n g.
Proof. induction n; cbn; [ring|]. rewrite IHn. ring. Qed.
Lemma sumn_scal n c f : sumn n (fun i => c * f i) = c * sumn n f.
Proof. induction n; cbn; [ring|]. rewrite IHn. ring. Qed.
Lemma sumn_scal_r n c f : sumn n (fun i => f i * c) = sumn n f * c.
Proof. induction n; cbn; [ring|]. rewrite IHn. ring. Qed.
Lemma sumn_opp n f : sumn n (fun i => - f i) = - sumn n f.
Proof. induction n; cbn; [ring|]. rewrite IHn. ring. Qed.
Lemma sumn_0 n : sumn n (fun _ => 0) = 0.
Proof. induction n; cbn; [ring|]. rewrite IHn. ring. Qed.
Lemma sumn_zero n f : (forall i, (i < n)%nat -> f i = 0) -> sumn n f = 0.
Proof. intros H. rewrite <- (sumn_0 n). apply sumn_ext; auto. Qed.
Lemma sumn_swap n m f : sumn n (fun i => sumn m (fun j => f i j)) = sumn m (fun j => sumn n (fun i => f i j)).
Proof. induction n; cbn; [rewrite sumn_0; auto|]. rewrite IHn, <- sumn_plus. reflexivity. Qed.
Lemma sumn_single n k f : (k < n)%nat -> (forall i, (i < n)%nat -> i <> k -> f i = 0) -> sumn n f = f k.
Proof.
  induction n; intros L H; [lia|]. cbn. destruct (Nat.eq_dec n k) as [->|N].
  - rewrite sumn_zero; [ring|]. intros i Hi. apply H; lia.
  - rewrite IHn; [|lia|intros; apply H; lia]. rewrite (H n); [ring|lia|auto].
Qed.
Lemma sumn_le n f g : (forall i, (i < n)%nat -> f i <= g i) -> sumn n f <= sumn n g.
Proof. induction n; intros H; cbn; [lra|]. apply Rplus_le_compat; auto. Qed.
Lemma sumn_nonneg n f : (forall i, (i < n)%nat -> 0 <= f i) -> 0 <= sumn n f.
Proof. intros H. rewrite <- (sumn_0 n). apply sumn_le; auto. Qed.
Lemma sumn_mult_r n f c : sumn n f * c = sumn n (fun i => f i * c).
Proof. symmetry. apply sumn_scal_r. Qed.
Lemma sumn_mult_l n f c : c * sumn n f = sumn n (fun i => c * f i).
Proof. symmetry. apply sumn_scal. Qed.
Lemma sumn_app n m f : sumn (n + m) f = sumn n f + sumn m (fun i => f (n + i)%nat).
Proof.
  induction m; cbn. { rewrite Nat.add_0_r. ring. }
  rewrite Nat.add_succ_r. cbn. rewrite IHm. ring.
Qed.

Lemma lsum_nil {A} (f : A -> R) : lsum [] f = 0.
Proof. reflexivity. Qed.
Lemma lsum_cons {A} a l (f : A -> R) : lsum (a :: l) f = f a + lsum l f.
Proof. reflexivity. Qed.
Lemma lsum_app {A} l1 l2 (f : A -> R) : lsum (l1 ++ l2) f = lsum l1 f + lsum l2 f.
Proof. unfold lsum. induction l1; cbn; [ring|]. rewrite IHl1. ring. Qed.
Lemma lsum_ext {A} l (f g : A -> R) : (forall a, In a l -> f a = g a) -> lsum l f = lsum l g.
Proof.
  induction l; intros H; cbn; auto. fold (lsum l f) (lsum l g). rewrite H by (cbn; auto). f_equal.
  apply IHl. intros; apply H; cbn; auto.
Qed.
Lemma lsum_plus {A} l (f g : A -> R) : lsum l (fun a => f a + g a) = lsum l f + lsum l g.
Proof. unfold lsum. induction l; cbn; [ring|]. rewrite IHl. ring. Qed.
Lemma lsum_scal {A} l c (f : A -> R) : lsum l (fun a => c * f a) = c * lsum l f.
Proof. unfold lsum. induction l; cbn; [ring|]. rewrite IHl. ring. Qed.
Lemma lsum_0 {A} (l : list A) : lsum l (fun _ => 0) = 0.
Proof. unfold lsum. induction l; cbn; [ring|]. rewrite IHl. ring. Qed.
Lemma lsum_zero {A} l (f : A -> R) : (forall a, In a l -> f a = 0) -> lsum l f = 0.
Proof. intros H. rewrite <- (lsum_0 l). apply lsum_ext; auto. Qed.
Lemma lsum_flat_map {A B} (g : A -> list B) l (f : B -> R) : lsum (flat_map g l) f = lsum l (fun a => lsum (g a) f).
Proof. induction l; auto. change (flat_map g (a :: l)) with (g a ++ flat_map g l). rewrite lsum_app, IHl. reflexivity. Qed.
Lemma lsum_map {A B} (g : A -> B) l (f : B -> R) : lsum (map g l) f = lsum l (fun a => f (g a)).
Proof. unfold lsum. induction l; cbn; auto. rewrite IHl. reflexivity. Qed.
Lemma lsum_seq n f : lsum (seq 0 n) f = sumn n f.
Proof.
  induction n; auto. rewrite seq_S, lsum_app, IHn. unfold lsum. cbn. ring.
Qed.
Lemma lsum_seq_from a n f : lsum (seq a n) f = sumn n (fun i => f (a + i)%nat).
Proof.
  induction n; auto. rewrite seq_S, lsum_app, IHn. unfold lsum. cbn. ring.
Qed.
Lemma sumn_lsum {A} n l (f : nat -> A -> R) : sumn n (fun i => lsum l (f i)) = lsum l (fun a => sumn n (fun i => f i a)).
Proof. induction n; cbn; [rewrite lsum_0; auto|]. rewrite IHn, <- lsum_plus. reflexivity. Qed.
Lemma lsum_le {A} l (f g : A -> R) : (forall a, In a l -> f a <= g a) -> lsum l f <= lsum l g.
Proof.
  unfold lsum. induction l; intros H; cbn; [lra|]. apply Rplus_le_compat; [apply H; cbn; auto|].
  apply IHl. intros; apply H; cbn; auto.
Qed.
Lemma lsum_nonneg {A} l (f : A -> R) : (forall a, In a l -> 0 <= f a) -> 0 <= lsum l f.
Proof. intros H. rewrite <- (lsum_0 l). apply lsum_le; auto. Qed.
#[global] Arguments lsum : simpl never.
