(** Specifications for C81: landmarks observed from known poses. *)
Require Import Reals List Arith.
From Verif Require Import Lin SpecGeom Nodes Robust Graph Sums Solve SpecSolve Session Factors SpecFactors SpecSolvable.
Import ListNotations.
Local Open Scope R_scope.

(** only 3D landmarks are estimated; all other nodes are anchors *)
Definition mapping (cs : list pycall) : Prop := forall i m v, nth_error (nodes_of cs) i = Some (m, v) -> m <> ANCHOR -> kind_of v = KL3.
(** [st'] differs from [st] in the positions of the estimated landmarks only *)
Definition rearranged (cs : list pycall) (st st' : nat -> nval) : Prop :=
  forall i m v, nth_error (nodes_of cs) i = Some (m, v) -> match m with ANCHOR => st' i = st i | _ => exists p, st' i = L3 p end.
(** the measurements of a session, without node creation, solving and initialisation *)
Definition measured (c : pycall) : list pycall :=
  match c with
  | CNode _ _ | CSolve _ _ _ _ | CChi2 _ => []
  | C2Poses2d obs i j W _ => [C2Poses2d obs i j W false]
  | C2Poses3d obs i j W _ => [C2Poses3d obs i j W false]
  | CLandmark2d r b i j W _ => [CLandmark2d r b i j W false]
  | CLandmark3d obs i j W _ => [CLandmark3d obs i j W false]
  | _ => [c]
  end.
(** the same information in all directions *)
Definition round_info (W : nat -> nat -> R) : Prop := forall i j, (i < 3)%nat -> (j < 3)%nat -> W i j = if Nat.eqb i j then W 0%nat 0%nat else 0.
(** the sum over the observations of landmark [j], weighted by their information *)
Definition observed (cs : list pycall) (j : nat) (f : V3 -> nat -> R) : R :=
  lsum cs (fun c => match c with CLandmark3d obs i j' W _ => if Nat.eqb j' j then W 0%nat 0%nat * f obs i else 0 | _ => 0 end).
(** a point of the frame of pose [v], in the frame of the map *)
Definition in_map (v : nval) (p : V3) : V3 := match v with P3 T => v3add (m3app (mR T) p) (mt T) | _ => p end.
