(** C46: one bit compressive sensing. *)
From Coq Require Import List Arith Bool Lia Reals Lra.
From Verif Require Import Vec RVec RMat Loop SolverSpec OptModel SortedL1Model SelModel SelSpec PursuitModel PursuitSpec PursuitProofs OneBitModel OneBitSpec OneBitProofs.
Import ListNotations.
Local Open Scope R_scope.

(** the measurements do not change when the signal is multiplied by a positive number *)
Theorem C46_measure_scale : forall m D x c, valid_dict m D -> 0 < c -> measure_1bit D m (rscale c x) = measure_1bit D m x.
Proof. intros m D x c V Hc. unfold measure_1bit. rewrite !phi_times_eq, (combine_scale V). now apply map_sign_scale. Qed.
Print Assumptions C46_measure_scale.

(** what biht returns: K distinct valid indices with one value each; the residual and the number of
    mismatched bits are those of the estimate; the iteration limit holds; it stops early only when
    the estimate reproduces every bit *)
Theorem C46_biht : forall m D y K tau max_iters fuel s, valid_dict m D -> length y = m -> (K <= d_n D)%nat ->
  biht D y K tau max_iters fuel = Done s ->
  let x := estimate (d_n D) s in
  NoDup (bi_I s) /\ length (bi_I s) = K /\ (forall i, In i (bi_I s) -> (i < d_n D)%nat) /\ length (bi_x s) = K /\ sparse K x /\
  bi_r s = rsub y (measure_1bit D m x) /\ bi_mismatched s = disagreements y (phi_times D m x) /\
  (bi_it s <= max_iters)%nat /\ (measure_1bit D m x = y \/ bi_it s = max_iters) /\
  (bi_mismatched s = 0%nat <-> measure_1bit D m x = y).
Proof.
  intros m D y K tau max_iters fuel s V Ly HK E. destruct (biht_run y tau max_iters V Ly HK fuel E) as (G & Hi & Ht). pose proof (agree_iff V Ly HK G) as Q.
  destruct G as (G1 & G2 & G3 & G4 & G5 & G6). cbv zeta. repeat (split; [solve [auto]|]). split.
  - exists (bi_I s). split; [lia|]. intros i Hi'. unfold estimate, scatter. destruct (Nat.lt_ge_cases i (d_n D)) as [L|L].
    + rewrite nth_tab by auto. clear - Hi'. revert Hi'. generalize (bi_I s) as J, (bi_x s) as x. induction J as [|j J IH]; intros [|a x] H; cbn; auto.
      destruct (Nat.eqb_spec j i); [exfalso; apply H; now left|]. apply IH. intros C; apply H; now right.
    + apply nth_overflow. rewrite tab_length. auto.
  - repeat (split; [solve [auto]|]). split; [|exact Q]. destruct Ht as [Ht|Ht]; [left; now apply Q|now right].
Qed.
Print Assumptions C46_biht.
Theorem C46_biht_terminates : forall m D y K tau max_iters fuel, valid_dict m D -> length y = m -> (K <= d_n D)%nat -> (max_iters <= fuel)%nat ->
  exists s, biht D y K tau max_iters fuel = Done s.
Proof. intros m D y K tau max_iters fuel V Ly HK. exact (@biht_total m D y K tau max_iters V Ly HK fuel). Qed.
Print Assumptions C46_biht_terminates.
(** each iteration moves to the nearest K-sparse vector of x + tau/2 Phi^T (y - sign(Phi x)) *)
Theorem C46_biht_step : forall m D y K tau max_iters k s s' z, valid_dict m D -> length y = m -> (K <= d_n D)%nat ->
  reaches (biht_cond max_iters) (biht_body D y K tau) (biht_init D y K) k s -> biht_body D y K tau s = Some s' ->
  length z = d_n D -> sparse K z ->
  let x := estimate (d_n D) s in let x' := estimate (d_n D) s' in
  let target := radd x (rscale (tau / 2) (d_trans D (rsub y (measure_1bit D m x)))) in
  nrm2 (rsub target x') <= nrm2 (rsub target z).
Proof.
  intros m D y K tau max_iters k s s' z V Ly HK H B Lz Sz. destruct (reach_good V Ly HK H) as [G _]. cbv zeta.
  pose proof (biht_step_best V Ly HK G B Lz Sz) as Q. unfold biht_target in Q. pose proof G as (_ & _ & _ & _ & E & _). rewrite E in Q. exact Q.
Qed.
Print Assumptions C46_biht_step.
(** and 1/2 Phi^T (sign(Phi x) - y) is a subgradient of the penalty on the wrong bits *)
Theorem C46_biht_subgradient : forall m D y x z, valid_dict m D -> length y = m -> bits y -> length x = d_n D -> length z = d_n D ->
  one_sided_l1 y (phi_times D m z) >= one_sided_l1 y (phi_times D m x) - rdot (rscale (/ 2) (d_trans D (rsub y (measure_1bit D m x)))) (rsub z x).
Proof. intros m D y x z V Ly By Lx Lz. exact (@biht_subgradient m D y 0 V Ly (Nat.le_0_l _) x z By Lx Lz). Qed.
Print Assumptions C46_biht_subgradient.
(** the step size only changes the scale of the result *)
Theorem C46_biht_step_size : forall m D y K tau c max_iters fuel s, valid_dict m D -> length y = m -> (K <= d_n D)%nat -> 0 < c ->
  biht D y K tau max_iters fuel = Done s ->
  exists t, biht D y K (c * tau) max_iters fuel = Done t /\ bi_I t = bi_I s /\ bi_x t = rscale c (bi_x s) /\ bi_r t = bi_r s /\
    bi_mismatched t = bi_mismatched s /\ bi_it t = bi_it s.
Proof.
  intros m D y K tau c max_iters fuel s V Ly HK Hc E. exists (scaled_state c s). rewrite (biht_scale y tau max_iters V Ly HK Hc), E. repeat split.
Qed.
Print Assumptions C46_biht_step_size.

(** rfp returns a unit vector after exactly inner_iters inner iterations *)
Theorem C46_rfp : forall m D y x0 lambda delta inner outer s, valid_dict m D -> length y = m -> (0 < inner)%nat ->
  rfp D y x0 lambda delta inner outer = Done s -> rf_it s = inner /\ nrm (rf_x s) = 1.
Proof. intros m D y x0 lambda delta inner outer s V Ly Hi E. destruct (rfp_run y x0 lambda delta inner outer V Ly E) as [H1 H2]. auto. Qed.
Print Assumptions C46_rfp.
(** the growing lambda has no effect: only delta / lambda at the start matters *)
Theorem C46_rfp_lambda : forall D y x0 lambda lambda' delta inner outer, delta / lambda = delta / lambda' ->
  rfp D y x0 lambda delta inner outer = rfp D y x0 lambda' delta inner outer.
Proof. exact rfp_lambda. Qed.
Print Assumptions C46_rfp_lambda.
(** the vector f_bar computed from the wrong bits is minus a gradient of the one-sided quadratic
    penalty, and it is subtracted: before the shrinkage the step never lowers the penalty, and raises
    it by at least delta |f_tilde|^2.  [shrink (h x) tau] is what rfp_body normalises. *)
Theorem C46_rfp_ascent : forall m D y delta tau s s', valid_dict m D -> length y = m -> bits y -> 0 <= delta ->
  length (rf_x s) = d_n D -> nrm2 (rf_x s) = 1 -> rfp_body D y delta tau s = Some s' ->
  exists h g, length g = d_n D /\ h = rsub (rf_x s) (rscale delta g) /\ rdot g (rf_x s) = 0 /\
    rf_x s' = rscale (/ nrm (shrink h tau)) (shrink h tau) /\
    one_sided_quadratic y (phi_times D m h) >= one_sided_quadratic y (phi_times D m (rf_x s)) + delta * nrm2 g.
Proof.
  intros m D y delta tau s s' V Ly By Hd Lx Nx E. exists (rfp_h m D y delta (rf_x s)), (rfp_f_tilde m D y (rf_x s)).
  split; [unfold rfp_f_tilde; rewrite rsub_len, rscale_len, (f_bar_len y V Ly); lia|]. split; [reflexivity|]. split; [now apply (f_tilde_orth y V Ly)|].
  rewrite (rfp_body_eq D y delta tau Ly) in E. cbv zeta in E. destruct (Reqb _ _); [discriminate|]. injection E as <-. split; [reflexivity|].
  now apply (rfp_no_descent V Ly).
Qed.
Print Assumptions C46_rfp_ascent.

(** a concrete case: the identity matrix, bits (1, 1), the estimate (-3/5, 4/5) with one wrong bit;
    the penalty 9/50 rises with the step *)
Example C46_nonvacuous : let D := matrix_dict [[1; 0]; [0; 1]] in
  valid_dict 2 D /\ bits [1; 1] /\ nrm2 [- (3 / 5); 4 / 5] = 1 /\
  exists s', rfp_body D [1; 1] (1 / 10) (1 / 10) (RFPState [- (3 / 5); 4 / 5] [0; 0] 0) = Some s'.
Proof.
  cbv zeta. split; [apply (@matrix_dict_valid 2 2); [repeat split; intros r [<-|[<-|[]]]; reflexivity|lia]|]. split; [|split].
  - intros [|[|i]] Hi; cbn in *; auto; lia.
  - unfold nrm2, rdot. cbn. field.
  - unfold rfp_body. cbv zeta. match goal with |- context [shrink ?h _] => set (u := h) end.
    assert (E : u = [- (3 / 5) - 1 / 10 * (48 / 125); 4 / 5 - 1 / 10 * (36 / 125)]).
    { unfold u. cbn -[Rleb]. unfold rfp_problems, rmul, zipw. cbn -[Rleb].
      repeat match goal with |- context [Rleb ?a ?b] => destruct (Rleb_spec a b); [try lra|try lra] end. f_equal; [field|]. f_equal. field. }
    rewrite E. destruct (Reqb_spec (nrm (shrink [- (3 / 5) - 1 / 10 * (48 / 125); 4 / 5 - 1 / 10 * (36 / 125)] (1 / 10))) 0) as [Z|Z]; [|eauto].
    exfalso. apply nrm_eq0 in Z. cbn in Z. injection Z as Z1 Z2. unfold Rmax, Rmin in Z2. repeat destruct (Rle_dec _ _); lra.
Qed.
