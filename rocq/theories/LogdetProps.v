(** C27 for the log det function: value, domain, convexity and gradient. *)
From Coq Require Import List Arith Bool Lia Reals Lra Psatz.
From Verif Require Import Vec RVec Loop BsblModel LogdetModel LogdetSpec LogdetProofs.
Local Open Scope R_scope.

(** The linear term <C, X>, when there is one *)
Definition linear_term (n : nat) (C : option (nat -> nat -> R)) (X : nat -> nat -> R) : R :=
  match C with Some C => matrix_ip n C X | None => 0 end.

(** If X = L L^T for some lower triangular L with positive diagonal, then the
    value is -q log det X + <C, X>, where det X is the square of the product of
    the diagonal of L *)
Theorem C27_logdet_value : forall n cholesky inv q C X L,
  cholesky_ok n cholesky -> inverse_ok n inv -> is_cholesky n X L ->
  logdet_func cholesky n q C X = Some (- q * (2 * rsum n (fun i => ln (L i i))) + linear_term n C X).
Proof.
  intros n cholesky inv q C X L Hc Hi HL. rewrite (value_of n cholesky inv q C Hc Hi X L HL). unfold lin, linear_term. f_equal. ring.
Qed.
Print Assumptions C27_logdet_value.

(** On symmetric matrices, the value is a number exactly for the positive definite ones *)
Theorem C27_logdet_domain : forall n cholesky q C X,
  cholesky_ok n cholesky -> fsymmetric n X -> (logdet_func cholesky n q C X <> None <-> pos_def n X).
Proof. intros n cholesky q C X Hc. exact (domain n cholesky q C Hc X). Qed.
Print Assumptions C27_logdet_domain.

(** The tangent given by the gradient lies below the function: it is convex *)
Theorem C27_logdet_convex : forall n cholesky inv q C X Y vx vy,
  cholesky_ok n cholesky -> inverse_ok n inv -> 0 <= q -> pos_def n X -> pos_def n Y ->
  logdet_func cholesky n q C X = Some vx -> logdet_func cholesky n q C Y = Some vy ->
  vx + matrix_ip n (logdet_grad inv q C X) (fun i j => Y i j - X i j) <= vy.
Proof. intros n cholesky inv q C X Y vx vy Hc Hi. exact (convex n cholesky inv q C Hc Hi X Y vx vy). Qed.
Print Assumptions C27_logdet_convex.

(** The derivative of the function at X in the direction of a symmetric H is
    <gradient, H>; the function is defined on a neighbourhood of X along H *)
Theorem C27_logdet_gradient : forall n cholesky inv q C X H,
  cholesky_ok n cholesky -> inverse_ok n inv -> 0 <= q -> pos_def n X -> fsymmetric n H ->
  (exists del, 0 < del /\ forall t, Rabs t < del -> logdet_func cholesky n q C (fun i j => X i j + t * H i j) <> None) /\
  derivable_pt_lim (fun t => value (logdet_func cholesky n q C (fun i j => X i j + t * H i j))) 0
    (matrix_ip n (logdet_grad inv q C X) H).
Proof.
  intros n cholesky inv q C X H Hc Hi Hq PX HS. split.
  - destruct (near n cholesky inv Hc Hi X H PX) as [c [del [Pc [Pd Hn]]]]. exists del. split; auto. intros t Ht.
    pose proof (shift_pd n X H PX HS c t Pc (Hn t Ht)) as PT.
    apply (domain n cholesky q C Hc (shift X H t)); auto. apply PT.
  - exact (derivative n cholesky inv q C Hc Hi X H PX HS Hq).
Qed.
Print Assumptions C27_logdet_gradient.

(** *** 2 x 2 matrices: a factorisation and an inverse that meet the premises *)
Definition chol2 (X : nat -> nat -> R) : option (nat -> nat -> R) :=
  let a := X 0%nat 0%nat in let b := X 1%nat 0%nat in let s := X 1%nat 1%nat - b * b / a in
  if Rlt_dec 0 a then if Rlt_dec 0 s then
    Some (fun i j => match i, j with 0%nat, 0%nat => sqrt a | 1%nat, 0%nat => b / sqrt a | 1%nat, 1%nat => sqrt s | _, _ => 0 end)
  else None else None.
Definition inv2 (X : nat -> nat -> R) : nat -> nat -> R :=
  let a := X 0%nat 0%nat in let b := X 0%nat 1%nat in let c := X 1%nat 0%nat in let d := X 1%nat 1%nat in let dt := a * d - b * c in
  fun i j => match i, j with 0%nat, 0%nat => d / dt | 0%nat, 1%nat => - b / dt | 1%nat, 0%nat => - c / dt | _, _ => a / dt end.
Lemma pd2 X : pos_def 2 X -> 0 < X 0%nat 0%nat /\ 0 < X 1%nat 1%nat - X 1%nat 0%nat * X 1%nat 0%nat / X 0%nat 0%nat /\ X 0%nat 1%nat = X 1%nat 0%nat.
Proof.
  intros [HS HP]. assert (E : X 0%nat 1%nat = X 1%nat 0%nat) by (apply HS; lia).
  assert (A : 0 < X 0%nat 0%nat).
  { specialize (HP (fun i => match i with 0%nat => 1 | _ => 0 end)). unfold qform in HP. cbn in HP.
    assert (G : exists i, (i < 2)%nat /\ match i with 0%nat => 1 | _ => 0 end <> 0) by (exists 0%nat; split; [lia|lra]). specialize (HP G). lra. }
  split; auto. split; auto.
  specialize (HP (fun i => match i with 0%nat => - X 1%nat 0%nat / X 0%nat 0%nat | _ => 1 end)). unfold qform in HP. cbn in HP.
  assert (G : exists i, (i < 2)%nat /\ match i with 0%nat => - X 1%nat 0%nat / X 0%nat 0%nat | _ => 1 end <> 0) by (exists 1%nat; split; [lia|lra]).
  specialize (HP G). rewrite E in HP. eapply Rlt_le_trans; [exact HP|]. right. field. lra.
Qed.
Lemma chol2_ok : cholesky_ok 2 chol2.
Proof.
  split.
  - intros X PX. destruct (pd2 X PX) as [A [B _]]. unfold chol2. cbv zeta. destruct (Rlt_dec 0 _); [|contradiction]. destruct (Rlt_dec 0 _); [discriminate|contradiction].
  - intros X L HS. unfold chol2. cbv zeta. destruct (Rlt_dec 0 (X 0%nat 0%nat)) as [A|]; [|discriminate].
    destruct (Rlt_dec 0 (X 1%nat 1%nat - X 1%nat 0%nat * X 1%nat 0%nat / X 0%nat 0%nat)) as [B|]; [|discriminate]. intros E. injection E as <-.
    pose proof (sqrt_lt_R0 _ A) as SA. pose proof (sqrt_lt_R0 _ B) as SB.
    pose proof (sqrt_sqrt _ (Rlt_le _ _ A)) as QA. pose proof (sqrt_sqrt _ (Rlt_le _ _ B)) as QB.
    assert (E : X 0%nat 1%nat = X 1%nat 0%nat) by (apply HS; lia).
    split; [|split].
    + intros [|[|i]] [|[|j]] Hi Hj; try lia; reflexivity.
    + intros [|[|i]] Hi; try lia; auto.
    + intros [|[|i]] [|[|j]] Hi Hj; try lia; cbn; rewrite ?E.
      * rewrite <- QA at 1. ring.
      * field. lra.
      * field. lra.
      * rewrite Rplus_0_l, QB. set (s := sqrt (X 0%nat 0%nat)) in *. rewrite <- QA. field. lra.
Qed.
Lemma inv2_ok : inverse_ok 2 inv2.
Proof.
  intros X PX. destruct (pd2 X PX) as [A [B E]].
  assert (D : X 0%nat 0%nat * X 1%nat 1%nat - X 0%nat 1%nat * X 1%nat 0%nat <> 0).
  { rewrite E. apply Rgt_not_eq. apply Rlt_gt. apply (Rmult_lt_compat_l _ _ _ A) in B. rewrite Rmult_0_r in B. eapply Rlt_le_trans; [exact B|]. right. field. lra. }
  intros [|[|i]] [|[|j]] Hi Hj; try lia; cbn; field; exact D.
Qed.
(** X = [[2, 1], [1, 2]], C = I, q = 3, direction [[0, 1], [1, 0]]: the slope is
    -3 (-1/3 - 1/3) = 2 *)
Example C27_logdet_nonvacuous :
  let X := fun i j => if Nat.eqb i j then 2 else 1 in
  let H := fun i j => if Nat.eqb i j then 0 else 1 in
  let I2 := fun i j => if Nat.eqb i j then 1 else 0 in
  cholesky_ok 2 chol2 /\ inverse_ok 2 inv2 /\ pos_def 2 X /\ fsymmetric 2 H /\
  logdet_func chol2 2 3 (Some I2) X <> None /\
  matrix_ip 2 (logdet_grad inv2 3 (Some I2) X) H = 2.
Proof.
  cbv zeta. assert (PX : pos_def 2 (fun i j => if Nat.eqb i j then 2 else 1)).
  { split; [intros i j _ _; now rewrite Nat.eqb_sym|]. intros v [i [Hi Hv]]. unfold qform. cbn.
    destruct i as [|[|i]]; [| |lia]; assert (0 < v 0%nat * v 0%nat + v 1%nat * v 1%nat) by nra; nra. }
  split; [exact chol2_ok|]. split; [exact inv2_ok|]. split; [exact PX|].
  split; [intros i j _ _; now rewrite Nat.eqb_sym|]. split.
  - apply (proj2 (domain 2 chol2 3 _ chol2_ok _ (proj1 PX)) PX).
  - unfold matrix_ip, logdet_grad, inv2. cbn. field.
Qed.
