(** Gaussian elimination: a linear solver that is [exact] (used to show that the
    hypothesis of C79 on the linear solver can be met). *)
Require Import Reals List Arith Lia Lra.
From Verif Require Import Sums Solve SpecFrame.
Import ListNotations.
Local Open Scope R_scope.

Definition swap (p n i : nat) : nat := if Nat.eqb i p then n else if Nat.eqb i n then p else i.
Definition pivot (n : nat) (L : nat -> nat -> R) : option nat :=
  find (fun p => if Req_EM_T (L p n) 0 then false else true) (seq 0 (S n)).
Fixpoint gauss (n : nat) (L : nat -> nat -> R) (b : nat -> R) : nat -> R :=
  match n with
  | O => fun _ => 0
  | S n =>
      match pivot n L with
      | None => fun _ => 0
      | Some p =>
          let A := fun i => L (swap p n i) in
          let c := fun i => b (swap p n i) in
          let x := gauss n (fun i j => A i j - A i n / A n n * A n j) (fun i => c i - A i n / A n n * c n) in
          fun j => if Nat.eqb j n then (c n - sumn n (fun j => A n j * x j)) / A n n else x j
      end
  end.
Lemma swap_swap p n i : swap p n (swap p n i) = i.
Proof.
  unfold swap. destruct (Nat.eqb_spec i p) as [E|E].
  - subst i. destruct (Nat.eqb_spec n p) as [E|E]; [exact E|]. rewrite Nat.eqb_refl. reflexivity.
  - destruct (Nat.eqb_spec i n) as [F|F].
    + rewrite Nat.eqb_refl. auto.
    + destruct (Nat.eqb_spec i p); [congruence|]. destruct (Nat.eqb_spec i n); [congruence|reflexivity].
Qed.
Lemma swap_le p n i : (p <= n)%nat -> (i <= n)%nat -> (swap p n i <= n)%nat.
Proof. unfold swap. destruct (Nat.eqb_spec i p), (Nat.eqb_spec i n); lia. Qed.
Lemma swap_last p n : swap p n n = p.
Proof. unfold swap. destruct (Nat.eqb_spec n p); auto. rewrite Nat.eqb_refl. auto. Qed.
Lemma pivot_some n L p : pivot n L = Some p -> (p <= n)%nat /\ L p n <> 0.
Proof. intros E. apply find_some in E. destruct E as [I E]. apply in_seq in I. destruct (Req_EM_T (L p n) 0); [discriminate|]. split; [lia | auto]. Qed.
Lemma pivot_none n L : pivot n L = None -> forall i, (i <= n)%nat -> L i n = 0.
Proof. intros E i Hi. assert (I : In i (seq 0 (S n))) by (apply in_seq; lia). pose proof (find_none _ _ E i I) as H. cbn in H. destruct (Req_EM_T (L i n) 0); [auto|discriminate]. Qed.
Lemma sumn_last n (f : nat -> R) (y : nat -> R) v : sumn (S n) (fun j => f j * (if Nat.eqb j n then v else y j)) = sumn n (fun j => f j * y j) + f n * v.
Proof.
  change (sumn (S n) (fun j => f j * (if Nat.eqb j n then v else y j))) with (sumn n (fun j => f j * (if Nat.eqb j n then v else y j)) + f n * (if Nat.eqb n n then v else y n)).
  rewrite Nat.eqb_refl. f_equal. apply sumn_ext. intros j Hj. destruct (Nat.eqb_spec j n); [lia | reflexivity].
Qed.
Lemma eliminate n (A : nat -> nat -> R) i x : sumn n (fun j => (A i j - A i n / A n n * A n j) * x j) = sumn n (fun j => A i j * x j) - A i n / A n n * sumn n (fun j => A n j * x j).
Proof.
  rewrite <- sumn_scal. unfold Rminus. rewrite <- sumn_opp, <- sumn_plus. apply sumn_ext. intros; ring.
Qed.
Lemma gauss_exact : exact gauss.
Proof.
  intros n. induction n as [|n IH]; intros L b NS i Hi; [lia|]. cbn [gauss]. destruct (pivot n L) as [p|] eqn:P.
  - destruct (pivot_some _ _ _ P) as [Lp Np]. cbv zeta. set (A := fun i => L (swap p n i)). set (c := fun i => b (swap p n i)).
    assert (An : A n n <> 0) by (unfold A; rewrite swap_last; exact Np).
    set (x := gauss n (fun i j => A i j - A i n / A n n * A n j) (fun i => c i - A i n / A n n * c n)). set (v := (c n - sumn n (fun j => A n j * x j)) / A n n).
    change (sumn (S n) (fun j => L i j * (if Nat.eqb j n then v else x j)) = b i).
    assert (NS' : nonsingular n (fun i j => A i j - A i n / A n n * A n j)).
    { intros y Hy. set (yn := - sumn n (fun j => A n j * y j) / A n n).
      assert (Z : forall k, (k < S n)%nat -> (if Nat.eqb k n then yn else y k) = 0).
      { apply (NS (fun j => if Nat.eqb j n then yn else y j)). intros k Hk. rewrite sumn_last. rewrite <- (swap_swap p n k). change (L (swap p n (swap p n k))) with (A (swap p n k)).
        assert (Hs : (swap p n k <= n)%nat) by (apply swap_le; lia). destruct (Nat.eq_dec (swap p n k) n) as [-> | Ne].
        - unfold yn. field. exact An.
        - specialize (Hy (swap p n k) ltac:(lia)). rewrite eliminate in Hy. transitivity (sumn n (fun j => A (swap p n k) j * y j) - A (swap p n k) n / A n n * sumn n (fun j => A n j * y j)); [unfold yn; field; exact An | exact Hy]. }
      intros k Hk. specialize (Z k ltac:(lia)). destruct (Nat.eqb_spec k n); [lia | exact Z]. }
    assert (X : forall i, (i < n)%nat -> sumn n (fun j => (A i j - A i n / A n n * A n j) * x j) = c i - A i n / A n n * c n) by exact (IH _ (fun i => c i - A i n / A n n * c n) NS').
    rewrite sumn_last. rewrite <- (swap_swap p n i). change (L (swap p n (swap p n i))) with (A (swap p n i)). change (b (swap p n (swap p n i))) with (c (swap p n i)).
    assert (Hs : (swap p n i <= n)%nat) by (apply swap_le; lia). destruct (Nat.eq_dec (swap p n i) n) as [-> | Ne].
    + unfold v. field. exact An.
    + specialize (X (swap p n i) ltac:(lia)). rewrite eliminate in X. unfold v.
      transitivity ((sumn n (fun j => A (swap p n i) j * x j) - A (swap p n i) n / A n n * sumn n (fun j => A n j * x j)) + A (swap p n i) n / A n n * c n); [field; exact An | rewrite X; ring].
  - exfalso. pose proof (pivot_none _ _ P) as Z. assert (E : (if Nat.eqb n n then 1 else 0) = 0).
    { apply (NS (fun j => if Nat.eqb j n then 1 else 0)); [|lia]. intros k Hk. rewrite sumn_last. rewrite (Z k) by lia. rewrite sumn_zero; [ring|]. intros; ring. }
    rewrite Nat.eqb_refl in E. lra.
Qed.
