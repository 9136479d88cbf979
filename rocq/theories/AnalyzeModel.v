(** The quick look at a solver result: analyze_solution of
    src/cr/sparse/_src/problems/problems.py, lines 82-117, on real vectors, and
    the extraction of the reconstruction from a solver result in
    src/cr/sparse/_src/tools/performance.py, lines 79-83. *)
From Coq Require Import List Arith Bool Reals.
From Verif Require Import Vec RVec Loop OptModel SortedL1Model SelModel PursuitModel PerfModel.
Import ListNotations.
Local Open Scope R_scope.

(** Energy of the k entries of largest magnitude. *)
Definition top_energy (x : vec) (k : nat) : R := rlsum (firstn k (rev (rsort (map (fun v => v * v) x)))).
(** crn.num_largest_coeffs_for_energy_percent, called in problems.py:105, 107.
    The function belongs to cr.nimble, whose source is not in the repository:
    the number of largest entries that hold [perc] percent of the energy, found
    as one plus the position of the first cumulative sum that reaches the
    threshold (argmax is 0 if none does). *)
Definition energy_count (x : vec) (perc : R) : nat :=
  match find (fun k => Rleb (perc / 100 * nrm2 x) (top_energy x k)) (seq 1 (length x)) with
  | Some k => k
  | None => 1
  end.

(** problems.py:104-112: k1, k2, the size of the overlap and the ratio.
    Python's division by max(k1, k2) is defined because both are positive. *)
Record overlap_line := { ov_k1 : nat; ov_k2 : nat; ov_correct : nat; ov_ratio : R }.
Definition overlap_of (x0 x : vec) (perc : R) : overlap_line :=
  let k1 := energy_count x0 perc in
  let s1 := largest_indices x0 k1 in
  let k2 := energy_count x perc in
  let s2 := largest_indices x k2 in
  let correct := length (intersect s1 s2) in
  {| ov_k1 := k1; ov_k2 := k2; ov_correct := correct; ov_ratio := INR correct / INR (Nat.max k1 k2) |}.

(** The part of a problem (problems/spec.py:30-69) that is read here. *)
Record problem_view := { pv_times : vec -> vec; pv_b : vec; pv_x : option vec; pv_y : option vec;
  pv_reconstruct : vec -> vec; pv_both : bool }.
(** What is printed, problems.py:86-112, without the signal to noise ratios and
    the counters of the solver: pairs of norms (original, reconstruction). *)
Record analysis := { an_b : R * R; an_x : option (R * R); an_y : option (R * R); an_overlap : option overlap_line }.
Definition analyze_solution (p : problem_view) (x : vec) (perc : R) : analysis :=
  {| an_b := (nrm (pv_b p), nrm (pv_times p x));
     an_x := match pv_x p with Some x0 => Some (nrm x0, nrm x) | None => None end;
     an_y := match pv_y p with
             | Some y0 => if pv_both p || match pv_x p with None => true | Some _ => false end
                          then Some (nrm y0, nrm (pv_reconstruct p x)) else None
             | None => None
             end;
     an_overlap := match pv_x p with Some x0 => Some (overlap_of x0 x perc) | None => None end |}.

(** *** Solver results handed to RecoveryPerformance *)
(** Results are named tuples.  Those of the pursuit algorithms have the fields
    I and x_I (pursuit/defs.py:105-131), those of the convex solvers have the
    field x and no field I (types.py:24-53). *)
Inductive solver_result :=
| PursuitResult (J : list nat) (x_J : vec)
| FullResult (x : vec).
(** ['x' in sol], performance.py:80: membership in a tuple compares the string
    with the values of the fields, never with their names, and no value is a
    string. *)
Definition x_in_result (s : solver_result) : bool := false.
(** performance.py:79-83; [None]: AttributeError, a full result has no I. *)
Definition x_hat_of (n : nat) (s : solver_result) : option vec :=
  if x_in_result s
  then match s with FullResult x => Some x | PursuitResult _ _ => None end
  else match s with PursuitResult J x_J => Some (scatter n J x_J) | FullResult _ => None end.
(** RecoveryPerformance(Phi, y, x, sol=sol), performance.py:75-139 *)
Definition performance_of_result (n : nat) (phi : vec -> vec) (y x : vec) (s : solver_result) : option performance :=
  match x_hat_of n s with Some x_hat => Some (recovery_performance phi y x x_hat) | None => None end.
