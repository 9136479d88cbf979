(** Model of the proximal operator of the ordered weighted l1 norm,
    cr/sparse/_src/opt/proximal_ops/prox_sorted_l1.py. *)
From Coq Require Import List Arith Bool Reals.
From Verif Require Import Scalar Vec Loop RVec OptModel.
Import ListNotations.
Local Open Scope R_scope.

(** jnp.argsort: stable, ascending *)
Fixpoint ins_idx (x : vec) (i : nat) (l : list nat) : list nat :=
  match l with [] => [i] | j :: l' => if Rleb (x@i) (x@j) then i :: l else j :: ins_idx x i l' end.
Definition argsort (x : vec) : list nat := fold_right (ins_idx x) [] (seq 0 (length x)).
(** y[idx] *)
Definition gather (y : vec) (idx : list nat) : vec := map (fun i => y@i) idx.
(** zeros(n).at[idx].set(x), distinct indices *)
Fixpoint scatter_get (idx : list nat) (x : vec) (j : nat) : R :=
  match idx, x with
  | i :: idx, a :: x => if (i =? j)%nat then a else scatter_get idx x j
  | _, _ => 0
  end.
Definition scatter (n : nat) (idx : list nat) (x : vec) : vec := tab n (scatter_get idx x).

(** prox_sorted_l1.py:33-34: mask, then segment_ids = cumsum(~mask) - 1 *)
Fixpoint seg_ids_from (prev : R) (k : nat) (x : vec) : list nat :=
  match x with
  | [] => []
  | a :: x => let k' := if Rltb prev a then k else S k in k' :: seg_ids_from a k' x
  end.
Definition seg_ids (x : vec) : list nat :=
  match x with [] => [] | a :: x => 0%nat :: seg_ids_from a 0 x end.
(** jax.ops.segment_sum(f, ids)[k] *)
Fixpoint segment_sum (f : vec) (ids : list nat) (k : nat) : R :=
  match f, ids with
  | a :: f, i :: ids => (if (i =? k)%nat then a else 0) + segment_sum f ids k
  | _, _ => 0
  end.
(** prox_sorted_l1.py:29-40 *)
Definition prox_ordered_l1_b (state : vec * vec) : vec * vec :=
  let (y, l) := state in
  let x := rsub y l in
  let segment_ids := seg_ids x in
  let norms := segment_sum (map (fun _ => 1) x) segment_ids in
  (map (fun k => segment_sum y segment_ids k / norms k) segment_ids,
   map (fun k => segment_sum l segment_ids k / norms k) segment_ids).
(** cnb.is_nonincreasing_vec *)
Fixpoint is_nonincreasing (x : vec) : bool :=
  match x with a :: ((b :: _) as x') => Rleb b a && is_nonincreasing x' | _ => true end.
(** prox_sorted_l1.py:43-45 *)
Definition is_not_nonincreasing (state : vec * vec) : bool :=
  let (y, l) := state in negb (is_nonincreasing (rsub y l)).
Definition sign (a : R) : R := if Rltb 0 a then 1 else if Rltb a 0 then -1 else 0.
(** prox_sorted_l1.py:47-72; l already broadcast.  [fuel] bounds the number of
    passes of lax.while_loop *)
Definition prox_ordered_l1_a (fuel : nat) (y0 l : vec) : outcome vec :=
  let sgn := map sign y0 in
  let y := map Rabs y0 in
  let idx := rev (argsort y) in
  let y := gather y idx in
  match while_ is_not_nonincreasing (fun s => Some (prox_ordered_l1_b s)) fuel (y, l) with
  | Done (y, l) =>
      let x := rsub y l in
      let x := map (fun a => if Rltb 0 a then a else 0) x in
      let x := scatter (length y0) idx x in
      Done (rmul sgn x)
  | Fail => Fail
  | Fuel => Fuel
  end.
(** prox_sorted_l1.py:112-127 *)
Definition owl1_func (lam x : vec) : R :=
  let x := map Rabs x in
  let x := rsort x in
  let x := rev x in
  rlsum (rmul lam x).
(** prox_sorted_l1.py:129-143 *)
Definition prox_owl1 (fuel : nat) (lam x : vec) (t : R) : outcome vec :=
  prox_ordered_l1_a fuel x (rscale t lam).
