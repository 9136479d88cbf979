(** C12: the Walsh-Hadamard operator. *)
From Coq Require Import List Arith Bool Lia Reals Lra.
From Verif Require Import Scalar Vec RVec LopSpec LopModel LopOpSpec LopProofs BasisSpec BasisModel BasisProofs FourierProps PhaseModel WalshModel.
Import ListNotations.
Local Open Scope R_scope.

(** f is the product with a symmetric matrix of +1 and -1 with orthogonal rows: a Walsh-Hadamard transform, in any of its orderings *)
Definition walsh_transform (n : nat) (f : list R -> list R) : Prop :=
  exists W : nat -> nat -> R,
    (forall i j, (i < n)%nat -> (j < n)%nat -> (W i j = 1 \/ W i j = -1) /\ W i j = W j i) /\
    (forall i i', (i < n)%nat -> (i' < n)%nat -> rsum n (fun j => W i j * W i' j) = if (i =? i')%nat then INR n else 0) /\
    forall x, length x = n -> f x = tab n (fun i => rsum n (fun j => W i j * x@j)).

Lemma power_of_2_pos n : is_power_of_2 n = true -> (0 < n)%nat.
Proof. unfold is_power_of_2. intros H. apply Nat.eqb_eq in H. destruct n; [discriminate|lia]. Qed.
Lemma walsh_spec fwht n T : op_walsh_hadamard fwht n = Some T -> walsh_transform n fwht ->
  exists B : nat -> nat -> R,
    (forall i j, (i < n)%nat -> (j < n)%nat -> Rabs (B i j) = / sqrt (INR n) /\ B i j = B j i) /\
    (forall i i', (i < n)%nat -> (i' < n)%nat -> rsum n (fun j => B i j * B i' j) = if (i =? i')%nat then 1 else 0) /\
    om T = n /\ on T = n /\
    (forall x, length x = n -> times T x = tab n (fun i => rsum n (fun j => B i j * x@j))) /\ (forall x, trans T x = times T x).
Proof.
  unfold op_walsh_hadamard. destruct (is_power_of_2 n) eqn:P; [|discriminate]. intros [= <-] (W & H1 & H2 & H3). apply power_of_2_pos in P.
  assert (N0 : 0 < INR n) by (apply lt_0_INR; lia). assert (S0 : 0 < sqrt (INR n)) by now apply sqrt_lt_R0.
  exists (fun i j => / sqrt (INR n) * W i j). split; [|split; [|split; [reflexivity|split; [reflexivity|split; [|reflexivity]]]]].
  - intros i j Hi Hj. destruct (H1 i j Hi Hj) as [A E]. split; [|now rewrite E]. rewrite Rabs_mult, (Rabs_pos_eq (/ sqrt (INR n))) by (left; now apply Rinv_0_lt_compat).
    destruct A as [-> | ->]; [rewrite Rabs_R1|rewrite Rabs_left by lra]; ring.
  - intros i i' Hi Hi'. rewrite (@rsum_ext n (fun j => / sqrt (INR n) * W i j * (/ sqrt (INR n) * W i' j)) (fun j => / (sqrt (INR n) * sqrt (INR n)) * (W i j * W i' j))).
    2:{ intros j Hj. field. lra. } rewrite rsum_mul_l, H2, sqrt_sqrt by (auto; lra). destruct (i =? i')%nat; field; lra.
  - intros x Hx. cbn [times mkop]. rewrite H3 by auto. apply vec_eq; [vl|]. intros i Hi. assert (Hi2 : (i < n)%nat) by (revert Hi; autorewrite with rlen; auto). clear Hi. rename Hi2 into Hi.
    rewrite rscale_nth, !nth_tab by auto. rewrite <- rsum_mul_l. apply rsum_ext. intros j Hj. transitivity (1 / sqrt (INR n) * (W i j * (nth j x 0 : R))); [reflexivity|]. generalize (nth j x 0 : R). intros xj. field. lra.
Qed.
Lemma walsh_twice fwht n T x : op_walsh_hadamard fwht n = Some T -> walsh_transform n fwht -> length x = n -> times T (times T x) = x.
Proof.
  intros HT HW Hx. destruct (walsh_spec fwht n T HT HW) as (B & B1 & B2 & _ & _ & B3 & _). rewrite (B3 x Hx), B3 by apply tab_length.
  apply vec_eq; [now rewrite tab_length|]. intros i Hi. rewrite tab_length in Hi. rewrite nth_tab by auto.
  rewrite (@rsum_ext n _ (fun j => rsum n (fun l => B i j * (B j l * x@l)))). 2:{ intros j Hj. rewrite nth_tab by auto. now rewrite <- rsum_mul_l. }
  rewrite rsum_exchange. rewrite (@rsum_ext n _ (fun l => (if (i =? l)%nat then 1 else 0) * x@l)).
  2:{ intros l Hl. rewrite <- (B2 i l) by auto. rewrite <- rsum_mul_r. apply rsum_ext. intros j Hj. rewrite (proj2 (B1 j l Hj Hl)). ring. }
  rewrite (@rsum_single n i); [|lia|intros l Hl Ne; destruct (Nat.eqb_spec i l); [congruence|ring]]. rewrite Nat.eqb_refl. apply Rmult_1_l.
Qed.
Lemma walsh_adjoint fwht n T : op_walsh_hadamard fwht n = Some T -> walsh_transform n fwht -> has_adjoint T n n.
Proof.
  intros HT HW. destruct (walsh_spec fwht n T HT HW) as (B & B1 & B2 & E1 & E2 & B3 & B4). split; [auto|split; [auto|]].
  apply (@adjoint_by_kernel Rs n n _ _ B).
  - intros x Hx. rewrite B3 by auto. apply tab_length.
  - intros x Hx. rewrite B4, B3 by auto. apply tab_length.
  - intros x i Hx Hi. rewrite B3 by auto. rewrite nth_tab by auto. symmetry. apply Sum_rsum.
  - intros x i Hx Hi. rewrite B4, B3 by auto. rewrite nth_tab by auto. etransitivity; [|symmetry; apply Sum_rsum]. apply rsum_ext. intros j Hj. rewrite (proj2 (B1 i j Hi Hj)). reflexivity.
Qed.
(** every power of two is accepted and nothing else *)
Theorem C12_walsh_accepts fwht n : (exists T, op_walsh_hadamard fwht n = Some T) <-> exists k, n = (2 ^ k)%nat.
Proof.
  unfold op_walsh_hadamard, is_power_of_2. destruct (Nat.eqb_spec (2 ^ Nat.log2 n) n) as [E|E].
  - split; [intros _; exists (Nat.log2 n); congruence|eauto].
  - split; [intros [T [=]]|]. intros [k ->]. now rewrite Nat.log2_pow2 in E by lia.
Qed.
Print Assumptions C12_walsh_accepts.
(** self-adjoint, its own inverse, preserves inner products, and all entries have absolute value 1 / sqrt n *)
Theorem C12_walsh_basis fwht n T : op_walsh_hadamard fwht n = Some T -> walsh_transform n fwht ->
  has_adjoint T n n /\ (forall x, trans T x = times T x) /\
  (forall x, length x = n -> trans T (times T x) = x /\ times T (trans T x) = x) /\
  (forall x y, length x = n -> length y = n -> rdot (times T x) (times T y) = rdot x y) /\
  forall i j, (i < n)%nat -> (j < n)%nat -> Rabs (times T (tab n (fun l => if (l =? j)%nat then 1 else 0)))@i = / sqrt (INR n).
Proof.
  intros HT HW. pose proof (walsh_adjoint fwht n T HT HW) as A. pose proof (walsh_spec fwht n T HT HW) as (B & B1 & B2 & E1 & E2 & B3 & B4). pose proof (walsh_twice fwht n T) as W2.
  split; [exact A|]. split; [exact B4|]. split; [|split].
  - intros x Hx. rewrite !B4. split; now apply W2.
  - intros x y Hx Hy. destruct A as [_ [_ [A1 [_ A3]]]]. assert (Lt : length (times T y) = n) by (rewrite (B3 y Hy); apply tab_length).
    transitivity (@inner Rs (times T x) (times T y)); [reflexivity|]. rewrite A3 by auto. rewrite B4, W2 by auto. reflexivity.
  - intros i j Hi Hj. rewrite B3 by apply tab_length. rewrite nth_tab by auto. rewrite (@rsum_single n j); auto.
    + rewrite nth_tab by auto. rewrite Nat.eqb_refl, Rmult_1_r. now apply B1.
    + intros l Hl Ne. rewrite nth_tab by auto. destruct (Nat.eqb_spec l j); [contradiction|ring].
Qed.
Print Assumptions C12_walsh_basis.
(** the transform in natural order, the product with hadamard(n), is such a transform, and the operator is then the product with hadamard_basis(n) *)
Theorem C12_walsh_natural n H B T : hadamard n = Some H -> hadamard_basis n = Some B ->
  walsh_transform n (fun x => tab n (fun i => rsum n (fun j => entry H i j * x@j))) /\
  (op_walsh_hadamard (fun x => tab n (fun i => rsum n (fun j => entry H i j * x@j))) n = Some T ->
   forall x i, length x = n -> (i < n)%nat -> (times T x)@i = rsum n (fun j => entry B i j * x@j)).
Proof.
  intros HH HB. destruct (C12_hadamard n H HH) as (S & P & Sy & O). split.
  - exists (entry H). split; [intros; split; [now apply P|now apply Sy]|]. split; [exact O|reflexivity].
  - unfold op_walsh_hadamard. destruct (is_power_of_2 n); [|discriminate]. intros [= <-] x i Hx Hi. cbn [times mkop]. rewrite rscale_nth, nth_tab by auto. rewrite <- rsum_mul_l. apply rsum_ext. intros j Hj.
    unfold hadamard_basis in HB. rewrite HH in HB. cbn [option_map] in HB. injection HB as <-. destruct S as [S1 S2].
    assert (E : entry (mscale (/ sqrt (INR n)) H) i j = / sqrt (INR n) * entry H i j).
    { unfold entry, mscale. rewrite nth_indep with (d' := map (Rmult (/ sqrt (INR n))) []) by (rewrite map_length; lia). rewrite map_nth. rewrite nth_indep with (d' := / sqrt (INR n) * 0) by (rewrite map_length, S2; [auto|apply nth_In; lia]). now rewrite map_nth. }
    rewrite E. unfold Rdiv. rewrite Rmult_1_l. symmetry. apply Rmult_assoc.
Qed.
Print Assumptions C12_walsh_natural.
Example C12_walsh_ex : exists H B T, hadamard 8 = Some H /\ hadamard_basis 8 = Some B /\ op_walsh_hadamard (fun x => tab 8 (fun i => rsum 8 (fun j => entry H i j * x@j))) 8 = Some T.
Proof. do 3 eexists. repeat split. Qed.
