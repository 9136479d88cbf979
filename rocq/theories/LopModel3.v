(** Model of lop/util.py:54-100 (dot tests) and lop/normest.py. *)
From Coq Require Import List Arith Bool Reals.
From Verif Require Import Scalar Vec Loop LopModel.
Import ListNotations.
Local Open Scope R_scope.

(** util.py:65-66: |a - b| / ((a + b + 1e-15)/2) < tol.  With a zero denominator
    the IEEE quotient is inf or NaN and the comparison is false. *)
Definition gap_test (a b tol : R) : bool :=
  let d := (a + b + / 10 ^ 15) / 2 in
  if Reqb d 0 then false else Rltb (Rabs (a - b) / d) tol.

(** util.py:54-66; u and v are the random vectors *)
Definition dot_test_real (A : operator Rs) (u v : list R) (tol : R) : bool :=
  gap_test (@inner Rs (times A u) v) (@inner Rs u (trans A v)) tol.
(** util.py:69-86 *)
Definition dot_test_complex (A : operator Cs) (u v : list Cx) (tol : R) : bool :=
  let yy := @inner Cs (times A u) v in
  let xx := @inner Cs u (trans A v) in
  gap_test (fst yy) (fst xx) tol && gap_test (snd yy) (snd xx) tol.
(** util.py:88-100; arr_rdot is the real part of the inner product *)
Definition rdot_test_complex (A : operator Cs) (u v : list Cx) (tol : R) : bool :=
  gap_test (fst (@inner Cs (times A u) v)) (fst (@inner Cs u (trans A v))) tol.

Section NormEst.
  Variable K : scalar.
  Variable sabs : K -> R. (* jnp.abs of a scalar *)

  (** cnb.arr_l2norm *)
  Definition l2norm (x : list K) : R := sqrt (fold_right (fun a s => sabs a * sabs a + s) 0 x).

  (** normest.py:23-33 *)
  Record ne_state := NE { ne_v : list K; ne_old : R; ne_new : R; ne_it : nat }.

  (** normest.py:69-71 *)
  Definition ne_init (b : list K) : ne_state := NE b (- (10 ^ 20)) (10 ^ 20) 0.
  (** normest.py:73-79; x/0 is inf (greater than the tolerance) and 0/0 is NaN *)
  Definition ne_cond (max_iters : nat) (tol : R) (s : ne_state) : bool :=
    (ne_it s <? max_iters)%nat &&
    (if Reqb (ne_old s) 0 then negb (Reqb (ne_new s) 0)
     else Rltb tol (Rabs ((ne_new s - ne_old s) / ne_old s))).
  (** normest.py:81-95; None: division by the zero norm (NaN) *)
  Definition ne_body (A : operator K) (s : ne_state) : option ne_state :=
    let vn := l2norm (ne_v s) in
    if Reqb vn 0 then None
    else
      let v := vscale (ofR (/ vn)) (ne_v s) in
      let w := trans A (times A v) in
      Some (NE w (ne_new s) (sabs (inner v w)) (S (ne_it s))).
  (** normest.py:49-100; [b] is the random start vector *)
  Definition normest (A : operator K) (b : list K) (max_iters : nat) (tol : R) : outcome R :=
    let bn := l2norm b in
    if Reqb bn 0 then Fail
    else
      match while_ (ne_cond max_iters tol) (ne_body A) max_iters (ne_init (vscale (ofR (/ bn)) b)) with
      | Done s => Done (sqrt (ne_new s))
      | Fail => Fail
      | Fuel => Fuel
      end.
End NormEst.
Arguments l2norm {K}. Arguments normest {K}. Arguments ne_cond {K}. Arguments ne_body {K}.
Arguments ne_init {K}. Arguments ne_v {K}. Arguments ne_old {K}. Arguments ne_new {K}. Arguments ne_it {K}.
Arguments NE {K}.

(** |z| for complex z *)
Definition Cabs (z : Cx) : R := sqrt (Cnsq z).
