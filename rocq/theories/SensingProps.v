(** C78: random sensing matrices have the promised columns, rows and shapes. *)
From Coq Require Import List Arith Bool Lia Reals Lra Psatz.
From Verif Require Import Scalar Vec RVec Loop BsblModel SubspSpec SubspModel SubspProofs SortedL1Model LopModel LopSpec SensingSpec SensingModel SensingProofs.
Import ListNotations.
Local Open Scope R_scope.

(** The Gaussian matrix with normalised atoms has the requested shape and unit
    columns, each a positive multiple of the drawn column. *)
Theorem C78_gaussian draw N D A : gaussian_mtx draw N D true = Some A ->
  sz_rows A = N /\ sz_cols A = D /\ unit_columns N D (sz_ent A) /\
  forall j, (j < D)%nat -> exists c, 0 < c /\ forall i, draw i j = c * sz_ent A i j.
Proof. exact (gaussian_some draw N D A). Qed.
Print Assumptions C78_gaussian.
(** It has NaN entries exactly when a zero column was drawn. *)
Theorem C78_gaussian_defined draw N D : gaussian_mtx draw N D true = None <-> exists j, (j < D)%nat /\ forall i, (i < N)%nat -> draw i j = 0.
Proof. exact (gaussian_none draw N D). Qed.
Print Assumptions C78_gaussian_defined.
(** Without normalisation all entries are divided by sqrt N. *)
Theorem C78_gaussian_raw draw N D : exists A, gaussian_mtx draw N D false = Some A /\ sz_rows A = N /\ sz_cols A = D /\
  ((1 <= N)%nat -> forall i j, sqrt (INR N) * sz_ent A i j = draw i j).
Proof.
  eexists. split; [reflexivity|]. split; [reflexivity|]. split; [reflexivity|]. intros H i j. cbn. field.
  apply Rgt_not_eq, sqrt_lt_R0, lt_0_INR. lia.
Qed.
Print Assumptions C78_gaussian_raw.
Example C78_gaussian_ex : exists A, gaussian_mtx (fun i j => INR (i + j + 1)) 3 5 true = Some A.
Proof.
  destruct (gaussian_mtx (fun i j => INR (i + j + 1)) 3 5 true) as [A|] eqn:E; [eauto|].
  apply C78_gaussian_defined in E as [j [Hj Z]]. specialize (Z 0%nat ltac:(lia)). exfalso. revert Z. apply Rgt_not_eq, lt_0_INR. lia.
Qed.

(** The Rademacher matrix: entries +-1/sqrt M in the drawn pattern, unit columns. *)
Theorem C78_rademacher draw M N : (1 <= M)%nat -> let A := rademacher_mtx draw M N true in
  sz_rows A = M /\ sz_cols A = N /\
  (forall i j, sz_ent A i j = (if draw i j then 1 else -1) / sqrt (INR M)) /\ unit_columns M N (sz_ent A).
Proof. intros H A. split; [reflexivity|]. split; [reflexivity|]. exact (rademacher_val draw M N H). Qed.
Print Assumptions C78_rademacher.
Theorem C78_rademacher_raw draw M N i j : sz_ent (rademacher_mtx draw M N false) i j = if draw i j then 1 else -1.
Proof. cbn. destruct (draw i j); ring. Qed.
Print Assumptions C78_rademacher_raw.

(** The sparse binary matrix: exactly the d chosen entries of every column are
    nonzero, all of them equal; normalised columns have norm one. *)
Theorem C78_sparse_binary choice M N d nrm A : (1 <= d)%nat ->
  (forall j, (j < N)%nat -> NoDup (choice j) /\ length (choice j) = d /\ forall i, In i (choice j) -> (i < M)%nat) ->
  sparse_binary_mtx choice M N d nrm = Some A ->
  sz_rows A = M /\ sz_cols A = N /\
  (forall i j, sz_ent A i j = if in_dec Nat.eq_dec i (choice j) then (if nrm then / sqrt (INR d) else 1) else 0) /\
  (nrm = true -> unit_columns M N (sz_ent A)) /\
  (nrm = false -> forall j, (j < N)%nat -> rsum M (column (sz_ent A) j) = INR d).
Proof.
  intros Hd Hc E. unfold sparse_binary_mtx in E. destruct ((M <? d)%nat && (0 <? N)%nat); [discriminate|].
  assert (P : 0 < INR d) by (apply lt_0_INR; lia). pose proof (sqrt_lt_R0 _ P) as Q. pose proof (sqrt_sqrt _ (Rlt_le _ _ P)) as Q2.
  assert (Z : (d =? 0)%nat = false) by (apply Nat.eqb_neq; lia). rewrite Z in E. cbn [andb] in E.
  destruct nrm; injection E as <-; cbn [sz_rows sz_cols sz_ent].
  - split; [auto|]. split; [auto|]. split; [|split; [|discriminate]].
    + intros i j. destruct (in_dec _ _ _) as [H|H].
      * apply existsb_in in H. rewrite H. unfold Rdiv. ring.
      * destruct (existsb (Nat.eqb i) (choice j)) eqn:X; [apply existsb_in in X; contradiction|]. unfold Rdiv. ring.
    + intros _ j Hj. destruct (Hc j Hj) as [ND [L B]]. unfold ip, column. set (q := sqrt (INR d)) in *.
      rewrite (@rsum_ext M _ (fun i => / (q * q) * (if existsb (Nat.eqb i) (choice j) then 1 else 0))).
      * rewrite rsum_mul_l, indicator_sum, L, Q2 by auto. apply Rinv_l. lra.
      * intros i Hi. destruct (existsb _ _); field; lra.
  - split; [auto|]. split; [auto|]. split; [|split; [discriminate|]].
    + intros i j. destruct (in_dec _ _ _) as [H|H]; [apply existsb_in in H; now rewrite H|].
      destruct (existsb (Nat.eqb i) (choice j)) eqn:X; [apply existsb_in in X; contradiction|auto].
    + intros _ j Hj. destruct (Hc j Hj) as [ND [L B]]. unfold column. now rewrite indicator_sum, L.
Qed.
Print Assumptions C78_sparse_binary.
Theorem C78_sparse_binary_defined choice M N d nrm : (1 <= N)%nat -> (1 <= d)%nat ->
  (exists A, sparse_binary_mtx choice M N d nrm = Some A) <-> (d <= M)%nat.
Proof.
  intros HN Hd. unfold sparse_binary_mtx. destruct (Nat.ltb_spec M d), (Nat.ltb_spec 0 N), (Nat.eqb_spec d 0); try lia; cbn [andb].
  - split; [intros [A E]; discriminate|lia].
  - split; [lia|]. intros _. destruct nrm; eauto.
Qed.
Print Assumptions C78_sparse_binary_defined.
Example C78_sparse_binary_ex : exists A, sparse_binary_mtx (fun j => [j; S j]) 4 3 2 true = Some A /\
  forall j, (j < 3)%nat -> NoDup [j; S j] /\ length [j; S j] = 2%nat /\ forall i, In i [j; S j] -> (i < 4)%nat.
Proof.
  eexists. split; [reflexivity|]. intros j Hj. split; [|split; [reflexivity|]].
  - constructor; [|constructor; [auto|constructor]]. cbn. lia.
  - cbn. lia.
Qed.

(** random_onb: for linearly independent draws the result has orthonormal
    columns and rows, its first k columns span the first k drawn ones with
    positive weights on the diagonal, and it does not depend on the signs the
    factorisation happens to choose. *)
Theorem C78_onb qr draw N : qr_pair N N draw (fst (qr draw)) (snd (qr draw)) -> independent_columns N N draw ->
  let A := random_onb qr draw N in
  sz_rows A = N /\ sz_cols A = N /\ orthonormal N N (sz_ent A) /\ orthonormal_rows N N (sz_ent A) /\
  (exists T, qr_pair N N draw (sz_ent A) T /\ forall j, (j < N)%nat -> 0 < T j j) /\
  (forall qr', qr_pair N N draw (fst (qr' draw)) (snd (qr' draw)) ->
     forall i j, (i < N)%nat -> (j < N)%nat -> sz_ent (random_onb qr' draw N) i j = sz_ent A i j).
Proof.
  assert (U : forall qr, qr_pair N N draw (fst (qr draw)) (snd (qr draw)) -> independent_columns N N draw ->
    let A := random_onb qr draw N in sz_rows A = N /\ sz_cols A = N /\ exists T, qr_pair N N draw (sz_ent A) T /\ forall j, (j < N)%nat -> 0 < T j j).
  { intros q H HI. unfold random_onb. destruct (q draw) as [Q T]. cbn [fst snd] in H. cbn. split; [auto|]. split; [auto|].
    pose proof (qr_independent _ _ _ _ _ H HI) as Hd. exists (fun k j => sign (T k k) * T k j). split; [now apply flip_qr|].
    intros j Hj. apply sign_mul, Hd, Hj. }
  intros H HI A. destruct (U qr H HI) as (E1 & E2 & T & HT & P). fold A in E1, E2, HT.
  pose proof (proj1 HT) as HO. split; [auto|]. split; [auto|]. split; [auto|]. split; [now apply square_rows|]. split; [eauto|].
  intros qr' H' i j Hi Hj. destruct (U qr' H' HI) as (_ & _ & T' & HT' & P').
  exact (qr_unique N N draw _ T' _ T HT' HT P' P j i Hj Hi).
Qed.
Print Assumptions C78_onb.
(** for a singular draw (an event of probability zero) it is not orthonormal *)
Theorem C78_onb_singular_refuted : exists qr draw, (forall A, qr_pair 1 1 A (fst (qr A)) (snd (qr A))) /\
  ~ orthonormal 1 1 (sz_ent (random_onb qr draw 1)).
Proof.
  exists (fun A => ((fun _ _ => 1), A)), (fun _ _ => 0). split.
  - intros A. split; [|split].
    + intros j k Hj Hk. destruct j; [|lia]. destruct k; [|lia]. cbn. ring.
    + intros k j Hk Hj. lia.
    + intros i j Hi Hj. destruct i; [|lia]. destruct j; [|lia]. cbn. ring.
  - intros H. specialize (H 0%nat 0%nat ltac:(lia) ltac:(lia)). cbn in H. unfold column, sign in H. 
    destruct (Rltb_spec 0 0); lra.
Qed.
Print Assumptions C78_onb_singular_refuted.

(** random_orthonormal_rows: orthonormal rows of the requested shape *)
Theorem C78_rows qr draw M N : (M <= N)%nat -> qr_pair N M draw (fst (qr draw)) (snd (qr draw)) -> independent_columns N M draw ->
  let A := random_orthonormal_rows qr draw M N in
  sz_rows A = M /\ sz_cols A = N /\ orthonormal_rows M N (sz_ent A) /\
  (forall j, (j < M)%nat -> in_span_of N M (ftr (sz_ent A)) (column draw j)) /\
  (forall qr', qr_pair N M draw (fst (qr' draw)) (snd (qr' draw)) ->
     forall i j, (i < M)%nat -> (j < N)%nat -> sz_ent (random_orthonormal_rows qr' draw M N) i j = sz_ent A i j).
Proof.
  intros HM.
  assert (U : forall qr, qr_pair N M draw (fst (qr draw)) (snd (qr draw)) -> independent_columns N M draw ->
    let A := random_orthonormal_rows qr draw M N in sz_rows A = M /\ sz_cols A = N /\ exists T, qr_pair N M draw (ftr (sz_ent A)) T /\ forall j, (j < M)%nat -> 0 < T j j).
  { intros q H HI. unfold random_orthonormal_rows. destruct (q draw) as [Q T]. cbn [fst snd] in H. cbn [sz_rows sz_cols sz_ent]. split; [lia|]. split; [auto|].
    pose proof (qr_independent _ _ _ _ _ H HI) as Hd. exists (fun k j => sign (T k k) * T k j). split; [exact (flip_qr _ _ _ _ _ H Hd)|].
    intros j Hj. apply sign_mul, Hd, Hj. }
  intros H HI A. destruct (U qr H HI) as (E1 & E2 & T & HT & P). fold A in E1, E2, HT. split; [auto|]. split; [auto|]. split; [|split].
  - intros i k Hi Hk. exact (proj1 HT i k Hi Hk).
  - intros j Hj. exists (fun k => T k j). intros i Hi. destruct HT as [_ [_ HA]]. exact (HA i j Hi Hj).
  - intros qr' H' i j Hi Hj. destruct (U qr' H' HI) as (_ & _ & T' & HT' & P').
    exact (qr_unique N M draw _ T' _ T HT' HT P' P i j Hi Hj).
Qed.
Print Assumptions C78_rows.
(** asked for more rows than columns it silently returns a square matrix *)
Theorem C78_rows_shape_refuted qr draw M N : (N < M)%nat -> sz_rows (random_orthonormal_rows qr draw M N) = N.
Proof. intros H. unfold random_orthonormal_rows. destruct (qr draw). cbn. lia. Qed.
Print Assumptions C78_rows_shape_refuted.
(** factorisations exist: here the identity *)
Example C78_qr_ex N : exists qr draw, qr_pair N N draw (fst (qr draw)) (snd (qr draw)) /\ independent_columns N N draw.
Proof.
  assert (O : orthonormal N N feye).
  { intros j k Hj Hk. unfold ip, column, feye. rewrite (delta_sum N j (fun i => if Nat.eqb i k then 1 else 0) Hj). reflexivity. }
  exists (fun _ => (feye, feye)), feye. cbn. split; [|now apply on_independent]. split; [auto|]. split.
  - intros k j _ _ H. unfold feye. destruct (Nat.eqb_spec k j); [lia|auto].
  - intros i j Hi Hj. symmetry. rewrite (@rsum_ext N _ (fun k => (if Nat.eqb k i then 1 else 0) * feye k j)).
    + now apply (delta_sum N i (fun k => feye k j)).
    + intros k _. unfold feye at 1. now rewrite Nat.eqb_sym.
Qed.

(** The operators: marked as real, advertised shape, product with the matrix and with its transpose. *)
Definition operates (T : operator Rs) (m n : nat) (A : nat -> nat -> R) : Prop :=
  real T = true /\ om T = m /\ on T = n /\ (forall x, length x = n -> is_product m n A x (times T x)) /\
  (forall y, length y = m -> is_product n m (fun i j => A j i) y (trans T y)).
Definition or_square (m : nat) (n : option nat) : nat := match n with None => m | Some n => n end.
Theorem C78_gaussian_dict draw m n nrm T : gaussian_dict draw m n nrm = Some T ->
  exists A, gaussian_mtx draw m (or_square m n) nrm = Some A /\ operates T m (or_square m n) (sz_ent A).
Proof.
  unfold gaussian_dict. fold (or_square m n). destruct (gaussian_mtx draw m (or_square m n) nrm) as [A|] eqn:E; [|discriminate].
  intros H. injection H as <-. exists A. split; [reflexivity|].
  assert (S : sz_rows A = m /\ sz_cols A = or_square m n).
  { unfold gaussian_mtx in E. destruct nrm; [destruct (forallb _ _); [|discriminate]|]; injection E as <-; auto. }
  pose proof (matrix_op_ok A) as K. destruct S as [<- S]. rewrite <- S. exact K.
Qed.
Print Assumptions C78_gaussian_dict.
Theorem C78_rademacher_dict draw m n nrm : operates (rademacher_dict draw m n nrm) m (or_square m n) (sz_ent (rademacher_mtx draw m (or_square m n) nrm)).
Proof. exact (matrix_op_ok (rademacher_mtx draw m (or_square m n) nrm)). Qed.
Print Assumptions C78_rademacher_dict.
Theorem C78_sparse_binary_dict choice m n d nrm T : sparse_binary_dict choice m n d nrm = Some T ->
  exists A, sparse_binary_mtx choice m (or_square m n) (match d with None => 10%nat | Some d => d end) nrm = Some A /\ operates T m (or_square m n) (sz_ent A).
Proof.
  unfold sparse_binary_dict. fold (or_square m n). set (d' := match d with None => 10%nat | Some d => d end).
  destruct (sparse_binary_mtx choice m (or_square m n) d' nrm) as [A|] eqn:E; [|discriminate].
  intros H. injection H as <-. exists A. split; [reflexivity|].
  assert (S : sz_rows A = m /\ sz_cols A = or_square m n).
  { unfold sparse_binary_mtx in E. destruct (_ && _) in E; [discriminate|]. destruct nrm; [destruct (_ && _) in E; [discriminate|]|]; injection E as <-; auto. }
  pose proof (matrix_op_ok A) as K. destruct S as [<- S]. rewrite <- S. exact K.
Qed.
Print Assumptions C78_sparse_binary_dict.
Theorem C78_onb_dict qr draw n : operates (random_onb_dict qr draw n) n n (sz_ent (random_onb qr draw n)).
Proof.
  pose proof (matrix_op_ok (random_onb qr draw n)) as K. unfold random_onb_dict. revert K. unfold random_onb. destruct (qr draw). auto.
Qed.
Print Assumptions C78_onb_dict.
Theorem C78_rows_dict qr draw m n : (m <= or_square m n)%nat ->
  operates (random_orthonormal_rows_dict qr draw m n) m (or_square m n) (sz_ent (random_orthonormal_rows qr draw m (or_square m n))).
Proof.
  intros H. pose proof (matrix_op_ok (random_orthonormal_rows qr draw m (or_square m n))) as K. unfold random_orthonormal_rows_dict. fold (or_square m n).
  assert (S : sz_rows (random_orthonormal_rows qr draw m (or_square m n)) = m /\ sz_cols (random_orthonormal_rows qr draw m (or_square m n)) = or_square m n).
  { unfold random_orthonormal_rows. destruct (qr draw). cbn. lia. }
  destruct S as [S1 S2]. rewrite S1, S2 in K. exact K.
Qed.
Print Assumptions C78_rows_dict.
(** the algorithmic binary operator multiplies with the matrix of its draws ... *)
Theorem C78_binary_alg bern m n : let T := binary_dict_alg bern m n in let k := or_square m n in
  let B := fun i j => if bern j i then 1 else 0 in
  (forall x, length x = k -> is_product m k B x (times T x)) /\
  (forall y, length y = m -> is_product k m (fun i j => B j i) y (trans T y)) /\
  linear T = true /\ jit_safe T = true /\ matrix_safe T = true.
Proof. destruct (binary_alg bern m n) as [H1 H2]. exact (conj H1 (conj H2 (conj eq_refl (conj eq_refl eq_refl)))). Qed.
Print Assumptions C78_binary_alg.
(** ... but advertises the shape of the transpose *)
Theorem C78_binary_alg_shape_refuted bern m n : m <> n ->
  (om (binary_dict_alg bern m (Some n)), on (binary_dict_alg bern m (Some n))) <> (m, n).
Proof. intros H E. injection E as E1 E2. cbn in E1. congruence. Qed.
Print Assumptions C78_binary_alg_shape_refuted.
