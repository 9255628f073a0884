(** Model of FGraphSolve: /repo/src/FGraph/factor_graph_solve.cpp.

    Not modelled: time profiling, printing, set_build_matrix_method(SCHUR)
    (build_problem then does nothing but assert(0)).
    Dynamic vectors and matrices are functions of their indices, their sizes are
    kept next to them. Sparse matrices are the lists of their inserted entries. *)
Require Import Reals List Arith Bool.
From Verif Require Import SO3 Nodes Robust Graph Sums.
Import ListNotations.
Local Open Scope R_scope.

Notation vec := (nat -> R) (only parsing).
Notation mat := (nat -> nat -> R) (only parsing).
Notation entry := (nat * nat * R)%type (only parsing).

(** dereferencing; the defaults are never reached: see [wf] and
    GraphProofs.factor_locs, neigh_valid, active_in *)
Definition node_dflt : node := node_ctor STANDARD (L2 0 0).
Definition factor_dflt : factor := factor_ctor 0 0 [] (fun _ _ => 0) (fun _ _ _ => 0) (fun _ _ => 0) QUADRATIC.
Definition nd (w : world) (l : loc) : node := nth l (w_nodes w) node_dflt.
Definition fa (w : world) (l : loc) : factor := nth l (w_factors w) factor_dflt.
(** the states of the neighbour nodes of a factor, get_neighbour_nodes()->at(i)->get_state() *)
Definition states_of (w : world) (f : factor) : list nval := map (fun l => nst (n_data (nd w l))) (f_nodes f).

(** Factor::evaluate_residuals / evaluate_jacobians / evaluate_chi2; chi2_ =
    0.5 * r_.dot(W_ * r_) in every child class (e.g. factor2Poses2d.cpp:92-95) *)
Definition factor_eval_res (vs : list nval) (f : factor) : factor :=
  mkFactor (f_id f) (f_dim f) (f_alldim f) (f_nodes f) (f_res f) (f_jac f) (f_info f)
    (f_res f vs) (f_J f) (f_chi2 f) (f_rob f) (f_weight f).
Definition factor_eval_jac (vs : list nval) (f : factor) : factor :=
  mkFactor (f_id f) (f_dim f) (f_alldim f) (f_nodes f) (f_res f) (f_jac f) (f_info f)
    (f_r f) (f_jac f vs) (f_chi2 f) (f_rob f) (f_weight f).
Definition quad (d : nat) (W : mat) (x y : vec) : R := sumn d (fun l => sumn d (fun k => x l * W l k * y k)).
Definition factor_eval_chi2 (f : factor) : factor :=
  mkFactor (f_id f) (f_dim f) (f_alldim f) (f_nodes f) (f_res f) (f_jac f) (f_info f)
    (f_r f) (f_J f) (1 / 2 * quad (f_dim f) (f_info f) (f_r f) (f_r f)) (f_rob f) (f_weight f).
Definition factor_set_weight (x : R) (f : factor) : factor :=
  mkFactor (f_id f) (f_dim f) (f_alldim f) (f_nodes f) (f_res f) (f_jac f) (f_info f)
    (f_r f) (f_J f) (f_chi2 f) (f_rob f) x.

Definition on_factor (w : world) (l : loc) (g : factor -> factor) : world :=
  mkW (w_nodes w) (upd (w_factors w) l g) (w_graph w).
Definition on_node (w : world) (l : loc) (g : node -> node) : world :=
  mkW (upd (w_nodes w) l g) (w_factors w) (w_graph w).

(** factor_graph_solve.hpp:218-237 *)
Record solver : Type := mkS {
  s_w : world; s_N : nat; s_M : nat; s_A : list entry; s_W : list entry; s_r : vec;
  s_L : mat; s_b : vec; s_dx : vec; s_lambda : R; s_tol : R; s_diag : vec }.
(** factor_graph_solve.cpp:40-45 *)
Definition solver_new (w : world) : solver :=
  mkS w 0 0 [] [] (fun _ => 0) (fun _ _ => 0) (fun _ => 0) (fun _ => 0) (1 / 1000000) (1 / 100) (fun _ => 0).

(** lines 226-238: unordered_map::emplace keeps the first value of a key; result (map, N_) *)
Definition map_find (m : list (nat * nat)) (k : nat) : option nat :=
  option_map snd (find (fun p => Nat.eqb (fst p) k) m).
Definition index_nodes (w : world) : list (nat * nat) * nat :=
  fold_left (fun '(m, N) l =>
    (match map_find m (n_id (nd w l)) with Some _ => m | None => m ++ [(n_id (nd w l), N)] end, N + n_dim (nd w l))%nat)
    (g_active (w_graph w)) ([], 0%nat).
(** line 303: operator[] inserts 0 for an unknown key *)
Definition map_get (m : list (nat * nat)) (k : nat) : nat := match map_find m k with Some v => v | None => 0%nat end.

(** lines 249-266: evaluation of all factors in order *)
Definition eval_factor (w : world) (l : loc) : world :=
  on_factor w l (fun f => let vs := states_of w f in factor_eval_chi2 (factor_eval_jac vs (factor_eval_res vs f))).
Definition eval_factors (w : world) : world := fold_left eval_factor (g_factors (w_graph w)) w.
(** lines 246-266: indFactorsMatrix paired with the factors; the final offset is M_ *)
Fixpoint index_factors (w : world) (off : nat) (fs : list loc) : list (nat * loc) :=
  match fs with [] => [] | l :: r => (off, l) :: index_factors w (off + f_dim (fa w l)) r end.
Definition total_obs (w : world) : nat := fold_left (fun m l => m + f_dim (fa w l))%nat (g_factors (w_graph w)) 0%nat.

(** line 278: r_.block(off, 0, dim, 1) << residual *)
Definition set_block (r : vec) (off d : nat) (v : vec) : vec :=
  fun i => if andb (Nat.leb off i) (Nat.ltb i (off + d)) then v (i - off)%nat else r i.

Definition is_anchor (n : node) : bool := match n_mode n with ANCHOR => true | _ => false end.
(** lines 286-308: the A_.insert calls of row l of a factor whose rows start at [off] *)
Fixpoint row_inserts (w : world) (m : list (nat * nat)) (J : mat) (off l totalK : nat) (ns : list loc) : list entry :=
  match ns with
  | [] => []
  | n :: r =>
      let d := n_dim (nd w n) in
      if is_anchor (nd w n) then row_inserts w m J off l (totalK + d) r
      else map (fun k => (off + l, map_get m (n_id (nd w n)) + k, J l (k + totalK))%nat) (seq 0 d)
           ++ row_inserts w m J off l (totalK + d) r
  end.
(** lines 284-309 *)
Definition factor_inserts (w : world) (m : list (nat * nat)) (p : nat * loc) : list entry :=
  let f := fa w (snd p) in
  flat_map (fun l => row_inserts w m (f_J f) (fst p) l 0 (f_nodes f)) (seq 0 (f_dim f)).
(** lines 315-325: the robust weight is evaluated anew for every entry, with
    u = sqrt(get_chi2()). (For chi2 < 0, possible only if the information matrix
    is not positive semidefinite, C++ has NaN where the model has sqrt = 0.) *)
Definition info_inserts (w : world) (p : nat * loc) : list entry :=
  let f := fa w (snd p) in
  flat_map (fun l => map (fun k => ((fst p + l)%nat, (fst p + k)%nat, robust_eval (f_rob f) (f_weight f) (sqrt (f_chi2 f)) * f_info f l k))
                         (seq l (f_dim f - l))) (seq 0 (f_dim f)).
(** the last robust weight is kept in the factor (factor.cpp:44-72) *)
Definition eval_weight (w : world) (l : loc) : world :=
  on_factor w l (fun f => if Nat.eqb (f_dim f) 0 then f
    else factor_set_weight (robust_eval (f_rob f) (f_weight f) (sqrt (f_chi2 f))) f).

(** Eigen SparseMatrix::insert (external): the position must be inside the
    matrix and empty, anything else is undefined *)
Definition same_pos (i j : nat) (e : entry) : bool := andb (Nat.eqb (fst (fst e)) i) (Nat.eqb (snd (fst e)) j).
Definition sp_insert (rows cols : nat) (A : list entry) (e : entry) : option (list entry) :=
  let '(i, j, v) := e in
  if andb (andb (Nat.ltb i rows) (Nat.ltb j cols)) (negb (existsb (same_pos i j) A)) then Some (A ++ [e]) else None.
Fixpoint sp_insert_all (rows cols : nat) (A : list entry) (es : list entry) : option (list entry) :=
  match es with
  | [] => Some A
  | e :: r => match sp_insert rows cols A e with Some A' => sp_insert_all rows cols A' r | None => None end
  end.
Definition sp_get (A : list entry) (i j : nat) : R :=
  match find (same_pos i j) A with Some e => snd e | None => 0 end.

(** lines 213-329. A_.reserve(reservationA) reads obsDim_ elements of a vector
    of M_ elements (line 268): undefined when M_ < obsDim_. *)
Definition build_adjacency (s : solver) : option solver :=
  let w0 := s_w s in
  let (m, N) := index_nodes w0 in
  let w1 := eval_factors w0 in
  let M := total_obs w1 in
  let rows := g_obsDim (w_graph w0) in
  let cols := g_stateDim (w_graph w0) in
  let ps := index_factors w1 0 (g_factors (w_graph w1)) in
  if negb (Nat.eqb M rows) then None else
  match sp_insert_all rows cols [] (flat_map (factor_inserts w1 m) ps),
        sp_insert_all rows rows [] (flat_map (info_inserts w1) ps) with
  | Some A, Some W =>
      let r := fold_left (fun r p => set_block r (fst p) (f_dim (fa w1 (snd p))) (f_r (fa w1 (snd p)))) ps (s_r s) in
      let w2 := fold_left eval_weight (g_factors (w_graph w1)) w1 in
      Some (mkS w2 N M A W r (s_L s) (s_b s) (s_dx s) (s_lambda s) (s_tol s) (s_diag s))
  | _, _ => None
  end.

(** Eigen selfadjointView<Upper> *)
Definition upper_sym (W : mat) : mat := fun p q => if Nat.leb p q then W p q else W q p.
(** lines 331-343 *)
Definition build_info_adjacency (s : solver) : solver :=
  let A := sp_get (s_A s) in
  let W := upper_sym (sp_get (s_W s)) in
  let M := g_obsDim (w_graph (s_w s)) in
  mkS (s_w s) (s_N s) (s_M s) (s_A s) (s_W s) (s_r s)
    (fun i j => sumn M (fun p => sumn M (fun q => A p i * W p q * A q j)))
    (fun i => sumn M (fun p => sumn M (fun q => A p i * W p q * s_r s q)))
    (s_dx s) (s_lambda s) (s_tol s) (s_diag s).
(** lines 88-115, matrixMethod_ = ADJ *)
Definition build_problem (useLambda : bool) (s : solver) : option solver :=
  match build_adjacency s with
  | None => None
  | Some s1 =>
      let s2 := build_info_adjacency s1 in
      Some (if useLambda
            then mkS (s_w s2) (s_N s2) (s_M s2) (s_A s2) (s_W s2) (s_r s2) (s_L s2) (s_b s2) (s_dx s2) (s_lambda s2) (s_tol s2)
                     (fun n => s_L s2 n n)
            else s2)
  end.
(** lines 117-138; [lin] is the sparse LDLT (external): size, matrix, right-hand
    side to solution; any function *)
Definition linear_solver := nat -> mat -> vec -> vec.
Definition optimize_gauss_newton (lin : linear_solver) (useLambda : bool) (s : solver) : option solver :=
  match build_problem useLambda s with
  | None => None
  | Some s1 =>
      let L := if useLambda
               then fun i j => if andb (Nat.eqb i j) (Nat.ltb i (s_N s1)) then s_lambda s1 + s_diag s1 i else s_L s1 i j
               else s_L s1 in
      Some (mkS (s_w s1) (s_N s1) (s_M s1) (s_A s1) (s_W s1) (s_r s1) L (s_b s1)
                (lin (g_stateDim (w_graph (s_w s1))) L (s_b s1)) (s_lambda s1) (s_tol s1) (s_diag s1))
  end.
Definition with_world (s : solver) (w : world) : solver :=
  mkS w (s_N s) (s_M s) (s_A s) (s_W s) (s_r s) (s_L s) (s_b s) (s_dx s) (s_lambda s) (s_tol s) (s_diag s).
Definition with_lambda (s : solver) (x : R) : solver :=
  mkS (s_w s) (s_N s) (s_M s) (s_A s) (s_W s) (s_r s) (s_L s) (s_b s) (s_dx s) x (s_tol s) (s_diag s).
Definition with_tol (s : solver) (x : R) : solver :=
  mkS (s_w s) (s_N s) (s_M s) (s_A s) (s_W s) (s_r s) (s_L s) (s_b s) (s_dx s) (s_lambda s) x (s_diag s).

(** lines 345-359 *)
Definition eval_factor_chi2 (w : world) (l : loc) : world :=
  on_factor w l (fun f => factor_eval_chi2 (factor_eval_res (states_of w f) f)).
Definition chi2 (flag : bool) (w : world) : world * R :=
  fold_left (fun '(w, t) l =>
    let w' := if flag then eval_factor_chi2 w l else w in
    (w', t + f_chi2 (fa w' l))) (g_factors (w_graph w)) (w, 0).
(** lines 405-416 *)
Definition get_chi2_array (w : world) : list R := map (fun l => f_chi2 (fa w l)) (g_factors (w_graph w)).

(** lines 361-374 *)
Definition update_node (dx : vec) (start : nat) (n : node) : node :=
  node_set_data (node_update (n_data n) (fun k => - dx (start + k)%nat)) n.
Definition update_nodes_w (w : world) (dx : vec) : world :=
  fst (fold_left (fun '(w, start) l => (on_node w l (update_node dx start), start + n_dim (nd w l))%nat)
    (g_active (w_graph w)) (w, 0%nat)).
Definition update_nodes (s : solver) : solver := with_world s (update_nodes_w (s_w s) (s_dx s)).
(** lines 376-387; Nodes.v: set_auxiliary_state(get_state()), set_state(get_auxiliary_state()) *)
Definition sync_aux (w : world) : world :=
  fold_left (fun w l => on_node w l (fun n => node_set_data (node_bookkeep (n_data n)) n)) (g_active (w_graph w)) w.
Definition sync_state (w : world) : world :=
  fold_left (fun w l => on_node w l (fun n => node_set_data (node_restore (n_data n)) n)) (g_active (w_graph w)) w.
(** lines 390-403 *)
Definition get_estimated_state (w : world) : list nval := map (fun l => nst (n_data (nd w l))) (g_nodes (w_graph w)).

(** lines 157-202: one pass of the loop body *)
Inductive lm_exit : Type := Rejected | Converged | Accepted.
Definition dot (n : nat) (x y : vec) : R := sumn n (fun i => x i * y i).
(** lines 192-199; 0 denominator: +inf if delta > 0 (then beta2), NaN if delta = 0 (then neither) *)
Definition lambda_update (lambda delta den : R) : R :=
  if Req_EM_T den 0 then (if Rltb 0 delta then lambda * (1 / 4) else lambda)
  else
    let fidelity := delta / den in
    let l1 := if Rltb fidelity (1 / 4) then lambda * 2 else lambda in
    if Rltb (8 / 10) fidelity then l1 * (1 / 4) else l1.
Definition lm_iter (lin : linear_solver) (s : solver) : option (solver * lm_exit) :=
  match optimize_gauss_newton lin true s with
  | None => None
  | Some s1 =>
      let (w1, currentChi2) := chi2 false (s_w s1) in
      let w2 := sync_aux w1 in
      let s3 := update_nodes (with_world s1 w2) in
      let (w4, newChi2) := chi2 true (s_w s3) in
      let s4 := with_world s3 w4 in
      let deltaChi2 := currentChi2 - newChi2 in
      if Rltb deltaChi2 0
      then Some (with_world (with_lambda s4 (s_lambda s4 * 2)) (sync_state w4), Rejected)
      else if Rltb deltaChi2 (s_tol s4) then Some (s4, Converged)
      else
        let n := g_stateDim (w_graph w4) in
        let den := dot n (s_dx s4) (s_b s4) -
                   1 / 2 * dot n (s_dx s4) (fun i => sumn n (fun j => s_L s4 i j * s_dx s4 j)) in
        Some (with_lambda s4 (lambda_update (s_lambda s4) deltaChi2 den), Accepted)
  end.
(** the comparisons of lines 172-185 on doubles; [None] is NaN: every comparison
    with it is false. [lm_iter] has numbers only: see SolveProofs.lm_iter_decide *)
Definition lm_decide (currentChi2 newChi2 : option R) (tol : R) : lm_exit :=
  match currentChi2, newChi2 with
  | Some c, Some n => if Rltb (c - n) 0 then Rejected else if Rltb (c - n) tol then Converged else Accepted
  | _, _ => Accepted
  end.
(** lines 140-211: do ... while (iter < maxIters); the result is the returned
    number. [fuel] bounds the number of passes of the model; SolveProofs shows
    that max(1, maxIters) is enough. *)
Fixpoint lm_loop (lin : linear_solver) (fuel iter maxIters : nat) (s : solver) : option (solver * nat) :=
  match fuel with
  | O => None
  | S fuel =>
      match lm_iter lin s with
      | None => None
      | Some (s', e) =>
          match e with
          | Converged => Some (s', S iter)
          | _ => if Nat.ltb (S iter) maxIters then lm_loop lin fuel (S iter) maxIters s' else Some (s', 0%nat)
          end
      end
  end.
Definition optimize_levenberg_marquardt (lin : linear_solver) (maxIters : nat) (s : solver) : option (solver * nat) :=
  lm_loop lin (S maxIters) 0 maxIters (with_lambda s (1 / 100000)).

(** lines 50-86 *)
Inductive optim_method : Type := GN | LM.
Definition solve (lin : linear_solver) (method : optim_method) (maxIters : nat) (lambda tol : R) (s : solver) : option solver :=
  let s0 := with_tol (with_lambda s lambda) tol in
  match method with
  | GN => option_map update_nodes (optimize_gauss_newton lin false s0)
  | LM => option_map fst (optimize_levenberg_marquardt lin maxIters s0)
  end.
