(** Lemmas about random subspaces. *)
From Coq Require Import List Arith Bool Reals Lia Lra Psatz.
From Verif Require Import Vec RVec Loop BsblModel LinAlg SubspModel SubspSpec.
Import ListNotations.
Local Open Scope R_scope.

Lemma ip_ext N a a' b b' : (forall i, (i < N)%nat -> a i = a' i) ->
  (forall i, (i < N)%nat -> b i = b' i) -> ip N a b = ip N a' b'.
Proof. intros H1 H2. apply rsum_ext. intros i Hi. now rewrite H1, H2. Qed.
Lemma ip_sym N a b : ip N a b = ip N b a.
Proof. apply rsum_ext. intros. ring. Qed.
Lemma ip_comb_l N d A u b :
  ip N (combine_cols d A u) b = rsum d (fun j => u j * ip N (column A j) b).
Proof.
  unfold ip, combine_cols, column.
  rewrite (rsum_ext (n := N) _ (fun i => rsum d (fun j => A i j * u j * b i)))
    by (intros; rewrite <- rsum_mul_r; reflexivity).
  rewrite rsum_exchange. apply rsum_ext. intros j Hj. rewrite <- rsum_mul_l.
  apply rsum_ext. intros. ring.
Qed.
Lemma ip_comb N d A u e B v :
  ip N (combine_cols d A u) (combine_cols e B v) =
  rsum d (fun j => rsum e (fun k => u j * v k * ip N (column A j) (column B k))).
Proof.
  rewrite ip_comb_l. apply rsum_ext. intros j Hj. rewrite ip_sym, ip_comb_l, <- rsum_mul_l.
  apply rsum_ext. intros k Hk. rewrite (ip_sym N (column A j)). ring.
Qed.
Lemma ip_lin2 N x a y b c : ip N (fun i => x * a i + y * b i) c = x * ip N a c + y * ip N b c.
Proof. unfold ip. rewrite <- !rsum_mul_l, <- rsum_add. apply rsum_ext. intros. ring. Qed.
Lemma ip_lin3 N x a y b z e c :
  ip N (fun i => x * a i + y * b i + z * e i) c = x * ip N a c + y * ip N b c + z * ip N e c.
Proof. unfold ip. rewrite <- !rsum_mul_l, <- !rsum_add. apply rsum_ext. intros. ring. Qed.

Lemma span_orth N k U a l : orthonormal N N U -> (k <= N)%nat -> in_span_of N k U a ->
  (k <= l < N)%nat -> ip N a (column U l) = 0.
Proof.
  intros HU Hk [u Hu] Hl. rewrite (ip_ext N a (combine_cols k U u) _ (column U l)) by auto.
  rewrite ip_comb_l. apply rsum_0'. intros j Hj. rewrite HU by lia.
  destruct (Nat.eqb_spec j l); [lia|ring].
Qed.

Lemma stack_cols a Y w lo hi : (lo <= hi)%nat -> (hi <= w)%nat ->
  fst (stack a Y w lo hi) = (1 + (hi - lo))%nat.
Proof. intros. unfold stack. cbn [fst]. rewrite !Nat.min_l by lia. reflexivity. Qed.

Lemma stack_ip N k U a b lo1 hi1 lo2 hi2 j l :
  orthonormal N N U -> (k <= N)%nat -> in_span_of N k U a -> in_span_of N k U b ->
  (lo1 <= hi1 <= N - k)%nat -> (lo2 <= hi2 <= N - k)%nat ->
  (j < 1 + (hi1 - lo1))%nat -> (l < 1 + (hi2 - lo2))%nat ->
  ip N (column (snd (stack a (fun i j => U i (k + j)%nat) (N - k) lo1 hi1)) j)
       (column (snd (stack b (fun i j => U i (k + j)%nat) (N - k) lo2 hi2)) l) =
  match j, l with
  | O, O => ip N a b
  | S j, S l => if Nat.eqb (lo1 + j) (lo2 + l) then 1 else 0
  | _, _ => 0
  end.
Proof.
  intros HU Hk Ha Hb H1 H2 Hj Hl. unfold stack. cbn [snd]. unfold column at 1 2.
  rewrite !Nat.min_l by lia. destruct j as [|j], l as [|l].
  - reflexivity.
  - change (ip N a (column U (k + (lo2 + l))) = 0). apply span_orth with k; auto. lia.
  - rewrite ip_sym. change (ip N b (column U (k + (lo1 + j))) = 0). apply span_orth with k; auto. lia.
  - change (ip N (column U (k + (lo1 + j))) (column U (k + (lo2 + l))) =
      if Nat.eqb (lo1 + j) (lo2 + l) then 1 else 0).
    rewrite HU by lia. destruct (Nat.eqb_spec (k + (lo1 + j)) (k + (lo2 + l))), (Nat.eqb_spec (lo1 + j) (lo2 + l));
      auto; lia.
Qed.

(** the columns of one stack are orthonormal *)
Lemma stack_on N k U a lo hi :
  orthonormal N N U -> (k <= N)%nat -> in_span_of N k U a -> ip N a a = 1 -> (lo <= hi <= N - k)%nat ->
  orthonormal N (1 + (hi - lo)) (snd (stack a (fun i j => U i (k + j)%nat) (N - k) lo hi)).
Proof.
  intros HU Hk Ha H1 Hh j l Hj Hl. rewrite stack_ip by auto. destruct j as [|j], l as [|l]; auto.
  cbn [Nat.eqb]. destruct (Nat.eqb_spec (lo + j) (lo + l)), (Nat.eqb_spec j l); auto; lia.
Qed.

(** ** Angles *)
Lemma unit_entry d u : ip d u u = 1 -> (0 < d)%nat -> u 0%nat * u 0%nat <= 1.
Proof.
  intros H Hd. rewrite <- H. apply (@rsum_ge_term d (fun i => u i * u i)); auto. intros; nra.
Qed.

Lemma angle_of_gram N d A e B c : (0 < d)%nat -> (0 < e)%nat -> 0 <= c ->
  (forall j k, (j < d)%nat -> (k < e)%nat ->
     ip N (column A j) (column B k) = if (Nat.eqb j 0 && Nat.eqb k 0)%bool then c else 0) ->
  smallest_angle_cos N d A e B c.
Proof.
  intros Hd He Hc HG.
  assert (HE : forall u v, ip N (combine_cols d A u) (combine_cols e B v) = u 0%nat * v 0%nat * c).
  { intros u v. rewrite ip_comb. rewrite (rsum_single (n := d) (k := 0%nat)); auto.
    - rewrite (rsum_single (n := e) (k := 0%nat)); auto.
      + rewrite HG by auto. reflexivity.
      + intros k Hk Hne. rewrite HG by auto. destruct (Nat.eqb_spec k 0); [lia|]. cbn. ring.
    - intros j Hj Hne. apply rsum_0'. intros k Hk. rewrite HG by auto.
      destruct (Nat.eqb_spec j 0); [lia|]. cbn. ring. }
  split.
  - intros u v Hu Hv. rewrite HE. apply unit_entry in Hu; auto. apply unit_entry in Hv; auto.
    assert (u 0%nat * v 0%nat <= 1) by nra. nra.
  - exists (fun j => if Nat.eqb j 0 then 1 else 0), (fun j => if Nat.eqb j 0 then 1 else 0).
    assert (H1 : forall n, (0 < n)%nat -> ip n (fun j => if Nat.eqb j 0 then 1 else 0) (fun j => if Nat.eqb j 0 then 1 else 0) = 1).
    { intros n Hn. unfold ip. rewrite (rsum_single (n := n) (k := 0%nat)); auto; [cbn; ring|].
      intros i Hi Hne. destruct (Nat.eqb_spec i 0); [lia|ring]. }
    split; [auto|split; [auto|]]. rewrite HE. cbn. ring.
Qed.

Lemma sin_sq_pos p : -1 <= p <= 1 -> 0 <= 1 - p ^ 2.
Proof. intros. nra. Qed.

Section Two.
  Variables (N D : nat) (svd_u : nat -> fmat -> fmat) (X : fmat) (theta : R).
  Hypothesis Hsvd : forall k X, (k <= N)%nat -> svd_factor N k X (svd_u k X).
  Hypothesis HD : (1 <= D)%nat.

  Lemma on_ip k Y i j : (k <= N)%nat -> (i < N)%nat -> (j < N)%nat ->
    ip N (fun r => svd_u k Y r i) (fun r => svd_u k Y r j) = if Nat.eqb i j then 1 else 0.
  Proof. intros Hk Hi Hj. exact (proj1 (Hsvd k Y Hk) i j Hi Hj). Qed.

  Lemma two_gram dA A dB B : (2 * D <= N)%nat ->
    two_subspaces_at_angle N D svd_u X theta = ((dA, A), (dB, B)) ->
    dA = D /\ dB = D /\ orthonormal N D A /\ orthonormal N D B /\
    forall j k, (j < D)%nat -> (k < D)%nat ->
      ip N (column A j) (column B k) =
      if (Nat.eqb j 0 && Nat.eqb k 0)%bool then cos (theta * (PI / 180)) else 0.
  Proof.
    intros HN. unfold two_subspaces_at_angle. fold (deg2rad theta).
    set (p := cos (deg2rad theta)). set (U := svd_u 2%nat X).
    set (a1 := fun i => U i 0%nat). set (a2 := fun i => U i 1%nat).
    set (s1 := sqrt (1 - p ^ 2)). set (b1 := comb2 p a1 s1 a2).
    set (X2 := fun i j => match j with O => a1 i | _ => b1 i end).
    intros H. injection H as HdA HA HdB HB.
    assert (Hp : -1 <= p <= 1) by apply COS_bound.
    assert (Hs : s1 * s1 = 1 - p ^ 2) by (apply sqrt_sqrt; now apply sin_sq_pos).
    assert (H11 : ip N a1 a1 = 1) by (apply (on_ip 2 X 0 0); lia).
    assert (H12 : ip N a1 a2 = 0) by (apply (on_ip 2 X 0 1); lia).
    assert (H22 : ip N a2 a2 = 1) by (apply (on_ip 2 X 1 1); lia).
    assert (Hb : forall c, ip N b1 c = s1 * ip N a2 c + p * ip N a1 c) by (intros c; apply ip_lin2).
    assert (Hab : ip N a1 b1 = p).
    { rewrite ip_sym, Hb, (ip_sym N a2), H12, H11. ring. }
    assert (Hbb : ip N b1 b1 = 1).
    { assert (H21 : ip N a2 a1 = 0) by (rewrite ip_sym; exact H12).
      rewrite Hb, (ip_sym N a2 b1), (ip_sym N a1 b1), !Hb, H11, H12, H21, H22. nra. }
    destruct (Hsvd 2 X2 ltac:(lia)) as [HU HX].
    pose proof (HX 0%nat ltac:(lia)) as Ha. pose proof (HX 1%nat ltac:(lia)) as Hbs.
    change (column X2 0) with a1 in Ha. change (column X2 1) with b1 in Hbs.
    change (fun i j => svd_u 2%nat X2 i (S (S j))) with (fun i j => svd_u 2%nat X2 i (2 + j)%nat) in HA, HB.
    assert (EA : A = snd (stack a1 (fun i j => svd_u 2%nat X2 i (2 + j)%nat) (N - 2) 0 (D - 1))) by (symmetry; exact HA).
    assert (EB : B = snd (stack b1 (fun i j => svd_u 2%nat X2 i (2 + j)%nat) (N - 2) (D - 1) (2 * D - 2))) by (symmetry; exact HB).
    assert (ED1 : D = (1 + ((D - 1) - 0))%nat) by lia.
    assert (ED2 : D = (1 + ((2 * D - 2) - (D - 1)))%nat) by lia.
    split; [rewrite Nat.min_l in HdA by lia; lia|].
    split; [rewrite !Nat.min_l in HdB by lia; lia|].
    split; [rewrite EA, ED1 at 1; apply stack_on; auto; lia|].
    split; [rewrite EB, ED2 at 1; apply stack_on; auto; lia|].
    intros j k Hj Hk. rewrite EA, EB, stack_ip by (auto; lia).
    destruct j as [|j], k as [|k]; cbn [Nat.eqb andb]; auto.
    destruct (Nat.eqb_spec (0 + j) (D - 1 + k)); [lia|auto].
  Qed.
End Two.

Lemma three_tail N D W (a1 b1 c1 : fvec) p : (1 <= D)%nat -> (3 * D <= N)%nat -> orthonormal N N W ->
  in_span_of N 3 W a1 -> in_span_of N 3 W b1 -> in_span_of N 3 W c1 ->
  ip N a1 a1 = 1 -> ip N b1 b1 = 1 -> ip N c1 c1 = 1 ->
  ip N a1 b1 = p -> ip N a1 c1 = p -> ip N b1 c1 = p ->
  let Y := fun i j => W i (3 + j)%nat in
  let A := stack a1 Y (N - 3) 0 (D - 1) in
  let B := stack b1 Y (N - 3) (D - 1) (2 * D - 2) in
  let C := stack c1 Y (N - 3) (2 * D - 2) (3 * D - 3) in
  (fst A = D /\ fst B = D /\ fst C = D) /\
  (orthonormal N D (snd A) /\ orthonormal N D (snd B) /\ orthonormal N D (snd C)) /\
  forall j k, (j < D)%nat -> (k < D)%nat ->
    let g := if (Nat.eqb j 0 && Nat.eqb k 0)%bool then p else 0 in
    ip N (column (snd A) j) (column (snd B) k) = g /\ ip N (column (snd A) j) (column (snd C) k) = g /\
    ip N (column (snd B) j) (column (snd C) k) = g.
Proof.
  intros HD HN HU Ha Hb Hc Haa Hbb Hcc Hab Hac Hbc Y A B C.
  assert (ED1 : D = (1 + ((D - 1) - 0))%nat) by lia.
  assert (ED2 : D = (1 + ((2 * D - 2) - (D - 1)))%nat) by lia.
  assert (ED3 : D = (1 + ((3 * D - 3) - (2 * D - 2)))%nat) by lia.
  assert (L1 : (0 <= D - 1 <= N - 3)%nat) by lia.
  assert (L2 : (D - 1 <= 2 * D - 2 <= N - 3)%nat) by lia.
  assert (L3 : (2 * D - 2 <= 3 * D - 3 <= N - 3)%nat) by lia.
  assert (L4 : (3 <= N)%nat) by lia.
  split; [unfold A, B, C, stack; cbn [fst]; rewrite !Nat.min_l by lia; lia|].
  split; [split; [|split]|].
  - rewrite ED1 at 1. apply stack_on; auto.
  - rewrite ED2 at 1. apply stack_on; auto.
  - rewrite ED3 at 1. apply stack_on; auto.
  - intros j k Hj Hk. unfold A, B, C, Y.
    assert (J1 : (j < 1 + (D - 1 - 0))%nat) by lia. assert (J2 : (j < 1 + (2 * D - 2 - (D - 1)))%nat) by lia.
    assert (K2 : (k < 1 + (2 * D - 2 - (D - 1)))%nat) by lia. assert (K3 : (k < 1 + (3 * D - 3 - (2 * D - 2)))%nat) by lia.
    rewrite !stack_ip by auto.
    destruct j as [|j], k as [|k]; cbn [Nat.eqb andb]; auto.
    clear - Hj Hk HD.
    destruct (Nat.eqb_spec (0 + j) (D - 1 + k)); [lia|]. destruct (Nat.eqb_spec (0 + j) (2 * D - 2 + k)); [lia|].
    destruct (Nat.eqb_spec (D - 1 + j) (2 * D - 2 + k)); [lia|]. auto.
Qed.

Section Three.
  Variables (N D : nat) (svd_u : nat -> fmat -> fmat) (X : fmat) (theta : R).
  Hypothesis Hsvd : forall k X, (k <= N)%nat -> svd_factor N k X (svd_u k X).
  Hypothesis HD : (1 <= D)%nat.

  Lemma three_gram dA A dB B dC C : (3 * D <= N)%nat ->
    three_subspaces_at_angle N D svd_u X theta = Some ((dA, A), (dB, B), (dC, C)) ->
    (dA = D /\ dB = D /\ dC = D) /\
    (orthonormal N D A /\ orthonormal N D B /\ orthonormal N D C) /\
    forall j k, (j < D)%nat -> (k < D)%nat ->
      let g := if (Nat.eqb j 0 && Nat.eqb k 0)%bool then cos (theta * (PI / 180)) else 0 in
      ip N (column A j) (column B k) = g /\ ip N (column A j) (column C k) = g /\
      ip N (column B j) (column C k) = g.
  Proof.
    intros HN. unfold three_subspaces_at_angle. fold (deg2rad theta).
    set (p := cos (deg2rad theta)). set (U := svd_u 3%nat X).
    set (a1 := fun i => U i 0%nat). set (a2 := fun i => U i 1%nat). set (a3 := fun i => U i 2%nat).
    set (s1 := sqrt (1 - p ^ 2)). set (b1 := comb2 p a1 s1 a2).
    destruct (Reqb s1 0) eqn:Es; [discriminate|].
    set (q := p * (1 - p) / s1).
    destruct (Rltb (1 - p ^ 2 - q ^ 2) 0) eqn:Eq; [discriminate|].
    set (t := sqrt (1 - p ^ 2 - q ^ 2)).
    set (c1 := fun i => p * a1 i + q * a2 i + t * a3 i).
    set (X2 := fun i j => match j with O => a1 i | 1%nat => b1 i | _ => c1 i end).
    assert (Hs0 : s1 <> 0) by (intros E; rewrite E in Es; destruct (Reqb_spec 0 0); [discriminate|lra]).
    assert (Ht0 : 0 <= 1 - p ^ 2 - q ^ 2)
      by (destruct (Rltb_spec (1 - p ^ 2 - q ^ 2) 0); [discriminate|lra]).
    intros H. injection H as HdA HA HdB HB HdC HC.
    assert (Hp : -1 <= p <= 1) by apply COS_bound.
    assert (Hs : s1 * s1 = 1 - p ^ 2) by (apply sqrt_sqrt; now apply sin_sq_pos).
    assert (Ht : t * t = 1 - p ^ 2 - q ^ 2) by (now apply sqrt_sqrt).
    assert (Hq : q * s1 = p * (1 - p)) by (unfold q; field; auto).
    assert (H3 : (3 <= N)%nat) by lia.
    assert (Ho : forall i j, (i < 3)%nat -> (j < 3)%nat ->
      ip N (fun r => U r i) (fun r => U r j) = if Nat.eqb i j then 1 else 0).
    { intros i j Hi Hj. apply (proj1 (Hsvd 3 X H3)); lia. }
    assert (H11 : ip N a1 a1 = 1) by (apply (Ho 0%nat 0%nat); lia).
    assert (H12 : ip N a1 a2 = 0) by (apply (Ho 0%nat 1%nat); lia).
    assert (H13 : ip N a1 a3 = 0) by (apply (Ho 0%nat 2%nat); lia).
    assert (H21 : ip N a2 a1 = 0) by (apply (Ho 1%nat 0%nat); lia).
    assert (H22 : ip N a2 a2 = 1) by (apply (Ho 1%nat 1%nat); lia).
    assert (H23 : ip N a2 a3 = 0) by (apply (Ho 1%nat 2%nat); lia).
    assert (H31 : ip N a3 a1 = 0) by (apply (Ho 2%nat 0%nat); lia).
    assert (H32 : ip N a3 a2 = 0) by (apply (Ho 2%nat 1%nat); lia).
    assert (H33 : ip N a3 a3 = 1) by (apply (Ho 2%nat 2%nat); lia).
    assert (Hb : forall c, ip N b1 c = s1 * ip N a2 c + p * ip N a1 c) by (intros c; apply ip_lin2).
    assert (Hc : forall c, ip N c1 c = p * ip N a1 c + q * ip N a2 c + t * ip N a3 c) by (intros c; apply ip_lin3).
    assert (Hab : ip N a1 b1 = p).
    { rewrite ip_sym, Hb, H21, H11. ring. }
    assert (Hac : ip N a1 c1 = p).
    { rewrite ip_sym, Hc, H21, H11, H31. ring. }
    assert (Hbb : ip N b1 b1 = 1).
    { rewrite Hb, (ip_sym N a2 b1), (ip_sym N a1 b1), !Hb, H11, H12, H21, H22. nra. }
    assert (Hbc : ip N b1 c1 = p).
    { rewrite Hb, (ip_sym N a2 c1), (ip_sym N a1 c1), !Hc, H11, H12, H21, H22, H31, H32. nra. }
    assert (Hcc : ip N c1 c1 = 1).
    { rewrite Hc, (ip_sym N a1 c1), (ip_sym N a2 c1), (ip_sym N a3 c1), !Hc,
        H11, H12, H13, H21, H22, H23, H31, H32, H33. nra. }
    destruct (Hsvd 3 X2 H3) as [HU HX].
    pose proof (HX 0%nat ltac:(lia)) as Ha. pose proof (HX 1%nat ltac:(lia)) as Hbs.
    pose proof (HX 2%nat ltac:(lia)) as Hcs.
    change (column X2 0) with a1 in Ha. change (column X2 1) with b1 in Hbs.
    change (column X2 2) with c1 in Hcs.
    assert (EA : A = snd (stack a1 (fun i j => svd_u 3%nat X2 i (3 + j)%nat) (N - 3) 0 (D - 1))) by (symmetry; exact HA).
    assert (EB : B = snd (stack b1 (fun i j => svd_u 3%nat X2 i (3 + j)%nat) (N - 3) (D - 1) (2 * D - 2))) by (symmetry; exact HB).
    assert (EC : C = snd (stack c1 (fun i j => svd_u 3%nat X2 i (3 + j)%nat) (N - 3) (2 * D - 2) (3 * D - 3))) by (symmetry; exact HC).
    rewrite EA, EB, EC. rewrite <- HdA, <- HdB, <- HdC.
    apply (three_tail N D (svd_u 3%nat X2) a1 b1 c1 p HD HN); assumption.
  Qed.

  (** 1 - c1_1^2 - c1_2^2 = (1 - p) (1 + 2 p) / (1 + p) *)
  Lemma third_weight p : -1 < p < 1 ->
    1 - p ^ 2 - (p * (1 - p) / sqrt (1 - p ^ 2)) ^ 2 = (1 - p) * (1 + 2 * p) / (1 + p).
  Proof.
    intros Hp. assert (Hs : sqrt (1 - p ^ 2) ^ 2 = 1 - p ^ 2) by (apply pow2_sqrt; nra).
    assert (Hne : sqrt (1 - p ^ 2) <> 0) by (intros E; rewrite E in Hs; nra).
    unfold Rdiv at 1. rewrite !Rpow_mult_distr, pow_inv, Hs. field. split; nra.
  Qed.

  Lemma three_some_iff : (exists r, three_subspaces_at_angle N D svd_u X theta = Some r) <->
    (cos (deg2rad theta) < 1 /\ -(1/2) <= cos (deg2rad theta)).
  Proof.
    unfold three_subspaces_at_angle. set (p := cos (deg2rad theta)).
    assert (Hp : -1 <= p <= 1) by apply COS_bound.
    destruct (Reqb (sqrt (1 - p ^ 2)) 0) eqn:E.
    - apply Reqb_true in E. apply sqrt_eq_0 in E; [|nra].
      split; [intros [r Hr]; discriminate|]. intros. exfalso. nra.
    - assert (Hne : sqrt (1 - p ^ 2) <> 0)
        by (intros E'; rewrite E' in E; destruct (Reqb_spec 0 0); [discriminate|lra]).
      assert (Hp' : -1 < p < 1).
      { split; apply Rnot_le_lt; intros Hc; apply Hne;
          [replace p with (-1) by lra|replace p with 1 by lra];
          [replace (1 - (-1) ^ 2) with 0 by ring|replace (1 - 1 ^ 2) with 0 by ring]; apply sqrt_0. }
      rewrite (third_weight p Hp').
      assert (Hi : 0 < / (1 + p)) by (apply Rinv_0_lt_compat; lra).
      destruct (Rltb_spec ((1 - p) * (1 + 2 * p) / (1 + p)) 0) as [Hl|Hl].
      + split; [intros [r Hr]; discriminate|]. intros [_ H]. exfalso.
        assert (0 <= (1 - p) * (1 + 2 * p) / (1 + p)); [|lra].
        apply Rmult_le_pos; [apply Rmult_le_pos; lra|lra].
      + split; [intros _|intros _; eauto]. split; [lra|].
        apply Rnot_lt_le. intros H. apply Hl. unfold Rdiv.
        assert ((1 - p) * (1 + 2 * p) < 0) by nra. nra.
  Qed.

  Lemma deg2rad_le a b : a <= b -> deg2rad a <= deg2rad b.
  Proof. intros. unfold deg2rad. apply Rmult_le_compat_r; auto. pose proof PI_RGT_0. lra. Qed.
  Lemma deg2rad_lt a b : a < b -> deg2rad a < deg2rad b.
  Proof. intros. unfold deg2rad. apply Rmult_lt_compat_r; auto. pose proof PI_RGT_0. lra. Qed.
  Lemma deg_0 : deg2rad 0 = 0.
  Proof. unfold deg2rad. ring. Qed.
  Lemma deg_180 : deg2rad 180 = PI.
  Proof. unfold deg2rad. field. Qed.
  Lemma deg_90 : deg2rad 90 = PI / 2.
  Proof. unfold deg2rad. field. Qed.
  Lemma deg_120 : cos (deg2rad 120) = - (1 / 2).
  Proof.
    replace (deg2rad 120) with (2 * (PI / 3)) by (unfold deg2rad; field).
    rewrite cos_2PI3. field.
  Qed.

  Lemma three_defined : 0 <= theta <= 180 ->
    ((exists r, three_subspaces_at_angle N D svd_u X theta = Some r) <-> 0 < theta <= 120).
  Proof.
    intros Ht. rewrite three_some_iff.
    pose proof (deg2rad_le 0 theta ltac:(lra)) as H0. rewrite deg_0 in H0.
    pose proof (deg2rad_le theta 180 ltac:(lra)) as H1. rewrite deg_180 in H1.
    assert (Hh : deg2rad 120 <= PI) by (rewrite <- deg_180; apply deg2rad_le; lra).
    assert (Hh0 : 0 <= deg2rad 120) by (rewrite <- deg_0; apply deg2rad_le; lra).
    pose proof PI_RGT_0 as HPI. rewrite <- deg_120. split.
    - intros [A B]. split.
      + apply Rnot_le_lt. intros Hc. replace theta with 0 in A by lra. rewrite deg_0, cos_0 in A. lra.
      + apply Rnot_lt_le. intros Hc. apply deg2rad_lt in Hc.
        assert (cos (deg2rad theta) < cos (deg2rad 120)) by (apply cos_decreasing_1; lra). lra.
    - intros [A B]. split.
      + rewrite <- cos_0. apply cos_decreasing_1; try lra. rewrite <- deg_0. now apply deg2rad_lt.
      + destruct (Req_dec theta 120) as [->|Hne]; [lra|]. apply Rlt_le.
        apply cos_decreasing_1; try lra. apply deg2rad_lt. lra.
  Qed.
End Three.

Lemma cos_acute theta : 0 <= theta <= 90 -> 0 <= cos (theta * (PI / 180)).
Proof.
  intros H. fold (deg2rad theta). pose proof PI_RGT_0 as HPI.
  pose proof (deg2rad_le 0 theta ltac:(lra)) as H0. rewrite deg_0 in H0.
  pose proof (deg2rad_le theta 90 ltac:(lra)) as H1. rewrite deg_90 in H1.
  apply cos_ge_0; lra.
Qed.

(** ** Random bases and points *)
Lemma sign_sq b : sign_of b * sign_of b = 1.
Proof. destruct b; unfold sign_of; ring. Qed.

Lemma bases_spec N D qr draws Bs : (forall A, qr_factor N D A (qr A)) ->
  random_subspaces N D qr draws = Some Bs ->
  length Bs = length draws /\
  forall i, (i < length draws)%nat ->
    orthonormal N D (nth i Bs (fun _ _ => 0)) /\
    forall j, (j < D)%nat ->
      in_span_of N D (nth i Bs (fun _ _ => 0))
        (column (fst (nth i draws (fun _ _ => 0, fun _ => true))) j).
Proof.
  intros Hqr. unfold random_subspaces. destruct (Nat.ltb N D); [discriminate|].
  intros H. injection H as <-. rewrite map_length. split; auto. intros i Hi.
  set (g := fun (d : fmat * (nat -> bool)) i j => qr (fst d) i j * sign_of (snd d j)).
  rewrite (nth_indep (map g draws) (fun _ _ => 0) (g (fun _ _ => 0, fun _ => true)))
    by now rewrite map_length.
  rewrite (map_nth g). set (d := nth i draws _). unfold g. destruct (Hqr (fst d)) as [HQ HS]. split.
  - intros j k Hj Hk. unfold ip, column.
    rewrite (rsum_ext (n := N) _ (fun r => sign_of (snd d j) * sign_of (snd d k) * (qr (fst d) r j * qr (fst d) r k)))
      by (intros; ring).
    rewrite rsum_mul_l. fold (ip N (column (qr (fst d)) j) (column (qr (fst d)) k)).
    change (sign_of (snd d j) * sign_of (snd d k) * ip N (column (qr (fst d)) j) (column (qr (fst d)) k) = if Nat.eqb j k then 1 else 0).
    rewrite HQ by auto. destruct (Nat.eqb_spec j k) as [->|]; [rewrite sign_sq|]; ring.
  - intros j Hj. destruct (HS j Hj) as [u Hu]. exists (fun k => sign_of (snd d k) * u k).
    intros r Hr. rewrite Hu by auto. unfold combine_cols. apply rsum_ext. intros k Hk.
    replace (qr (fst d) r k * sign_of (snd d k) * (sign_of (snd d k) * u k))
      with (qr (fst d) r k * u k * (sign_of (snd d k) * sign_of (snd d k))) by ring.
    rewrite sign_sq. ring.
Qed.

Lemma bases_none N D qr draws : random_subspaces N D qr draws = None <-> (N < D)%nat.
Proof.
  unfold random_subspaces. destruct (Nat.ltb_spec N D); split; intros; auto; try discriminate. lia.
Qed.

Lemma points_spec N n (bases : list (nat * fmat)) (coeffs : list fmat) P :
  (forall i, (i < length bases)%nat ->
     orthonormal N (fst (nth i bases (0%nat, fun _ _ => 0))) (snd (nth i bases (0%nat, fun _ _ => 0)))) ->
  uniform_points_on_subspaces n bases coeffs = Some P ->
  forall i j, (i < length bases)%nat -> (j < n)%nat ->
    let '(d, A) := nth i bases (0%nat, fun _ _ => 0) in
    let c := column (nth i coeffs (fun _ _ => 0)) j in
    ip N (column P (i * n + j)) (column P (i * n + j)) = 1 /\
    exists s, 0 < s /\ forall r, column P (i * n + j) r = combine_cols d A (fun k => s * c k) r.
Proof.
  intros HA. unfold uniform_points_on_subspaces.
  match goal with |- context [forallb ?f (seq 0 (length bases))] => destruct (forallb f (seq 0 (length bases))) eqn:Hf end; [|discriminate].
  intros H. injection H as <-. intros i j Hi Hj.
  rewrite forallb_forall in Hf. specialize (Hf i ltac:(apply in_seq; lia)). cbn beta zeta in Hf.
  rewrite forallb_forall in Hf. specialize (Hf j ltac:(apply in_seq; lia)). cbn beta in Hf.
  specialize (HA i Hi). destruct (nth i bases _) as [d A] eqn:Eb. cbn [fst snd] in *.
  set (c := column (nth i coeffs (fun _ _ => 0)) j).
  change (negb (Reqb (ip d c c) 0) = true) in Hf.
  assert (Hne : ip d c c <> 0).
  { intros E. rewrite E in Hf. destruct (Reqb_spec 0 0); [discriminate|lra]. }
  assert (Hpos : 0 < ip d c c).
  { assert (0 <= ip d c c) by (apply rsum_pos; intros; nra). lra. }
  assert (Hs : 0 < sqrt (ip d c c)) by now apply sqrt_lt_R0.
  set (s := / sqrt (ip d c c)).
  assert (HP : forall r, column (fun r c0 =>
      let i0 := (c0 / n)%nat in
      let '(di, A0) := nth i0 bases (0%nat, fun _ _ => 0) in
      fmul di A0 (normalize_cols di (nth i0 coeffs (fun _ _ => 0))) r (c0 mod n)%nat) (i * n + j) r =
      combine_cols d A (fun k => s * c k) r).
  { intros r. unfold column at 1. cbn zeta.
    rewrite Nat.div_add_l, Nat.div_small, Nat.add_0_r, Eb by lia.
    rewrite Nat.add_comm, Nat.mod_add, Nat.mod_small by lia.
    apply rsum_ext. intros k Hk. unfold normalize_cols, Rdiv, s. fold (ip d c c).
    change (rsum d (fun k0 => nth i coeffs (fun _ _ => 0) k0 j * nth i coeffs (fun _ _ => 0) k0 j)) with (ip d c c).
    unfold c, column. ring. }
  split.
  - rewrite (ip_ext N _ (combine_cols d A (fun k => s * c k)) _ (combine_cols d A (fun k => s * c k)))
      by (intros; apply HP).
    rewrite ip_comb.
    rewrite (rsum_ext (n := d) _ (fun k => s * s * (c k * c k))).
    + rewrite rsum_mul_l. fold (ip d c c). change (s * s * ip d c c = 1). unfold s.
      rewrite <- (sqrt_sqrt (ip d c c)) at 3 by lra. field. lra.
    + intros k Hk. rewrite (rsum_single (n := d) (k := k)); auto.
      * rewrite HA, Nat.eqb_refl by auto. ring.
      * intros l Hl Hne'. rewrite HA by auto. destruct (Nat.eqb_spec k l); [lia|ring].
  - exists s. split; [now apply Rinv_0_lt_compat|exact HP].
Qed.

Lemma points_none n (bases : list (nat * fmat)) (coeffs : list fmat) :
  uniform_points_on_subspaces n bases coeffs = None <->
  exists i j, (i < length bases)%nat /\ (j < n)%nat /\
    let d := fst (nth i bases (0%nat, fun _ _ => 0)) in
    forall k, (k < d)%nat -> column (nth i coeffs (fun _ _ => 0)) j k = 0.
Proof.
  unfold uniform_points_on_subspaces. match goal with |- context [forallb ?f (seq 0 (length bases))] => destruct (forallb f (seq 0 (length bases))) eqn:Hf end.
  - split; [discriminate|]. intros (i & j & Hi & Hj & H0). exfalso.
    rewrite forallb_forall in Hf. specialize (Hf i ltac:(apply in_seq; lia)). cbn beta zeta in Hf.
    rewrite forallb_forall in Hf. specialize (Hf j ltac:(apply in_seq; lia)). cbn beta in Hf.
    rewrite rsum_0' in Hf.
    + destruct (Reqb_spec 0 0); [discriminate|lra].
    + intros k Hk. unfold column in H0. rewrite H0 by auto. ring.
  - split; auto. intros _.
    assert (forall (A : Type) (f : A -> bool) l, forallb f l = false -> exists x, In x l /\ f x = false) as FE.
    { induction l as [|x l IH]; cbn; [discriminate|]. destruct (f x) eqn:Ex; cbn; intros H.
      - destruct (IH H) as (y & Hy & Hy'). exists y. auto.
      - exists x. auto. }
    apply FE in Hf. destruct Hf as (i & Hi & Hf). apply in_seq in Hi. cbn beta zeta in Hf.
    apply FE in Hf. destruct Hf as (j & Hj & Hf). apply in_seq in Hj.
    exists i, j. split; [lia|]. split; [lia|]. cbn zeta. intros k Hk.
    apply negb_false_iff, Reqb_true in Hf. unfold column.
    assert (Hnn : forall k0 : nat, (k0 < fst (nth i bases (0%nat, fun _ _ => 0%R)))%nat ->
      0 <= nth i coeffs (fun _ _ => 0) k0 j * nth i coeffs (fun _ _ => 0) k0 j) by (intros; nra).
    pose proof (@rsum_eq0 _ _ Hnn Hf k Hk) as H. cbn beta in H. nra.
Qed.

(** ** Factorisations exist *)
Definition snoc (m : nat) (U : fmat) (v : fvec) : fmat :=
  fun i j => if Nat.eqb j m then v i else U i j.

Lemma snoc_comb m U v u i :
  combine_cols (S m) (snoc m U v) u i = combine_cols m U u i + v i * u m.
Proof.
  unfold combine_cols. cbn [rsum]. unfold snoc at 2. rewrite Nat.eqb_refl. f_equal.
  apply rsum_ext. intros j Hj. unfold snoc. destruct (Nat.eqb_spec j m); [lia|auto].
Qed.

Lemma unit_scale N v : 0 < ip N v v -> ip N (fun i => / sqrt (ip N v v) * v i) (fun i => / sqrt (ip N v v) * v i) = 1.
Proof.
  intros H. set (s := sqrt (ip N v v)). assert (Hs : 0 < s) by now apply sqrt_lt_R0.
  assert (Hss : s * s = ip N v v) by (apply sqrt_sqrt; lra).
  unfold ip at 1. rewrite (rsum_ext (n := N) _ (fun i => / s * / s * (v i * v i))) by (intros; ring).
  rewrite rsum_mul_l. fold (ip N v v). change (/ s * / s * ip N v v = 1). rewrite <- Hss. field. lra.
Qed.
Lemma ip_scale_r N a c v : ip N a (fun i => c * v i) = c * ip N a v.
Proof. unfold ip. rewrite <- rsum_mul_l. apply rsum_ext. intros. ring. Qed.
Lemma ip_self_pos N v : (exists i, (i < N)%nat /\ v i <> 0) -> 0 < ip N v v.
Proof.
  intros [i [Hi Hv]]. assert (Hnn : forall i, (i < N)%nat -> 0 <= v i * v i) by (intros; nra).
  pose proof (@rsum_ge_term N (fun i => v i * v i) i Hi Hnn) as H. cbn beta in H. unfold ip. nra.
Qed.

Lemma extend_on N m U x : (m < N)%nat -> orthonormal N m U ->
  exists v, ip N v v = 1 /\ (forall j, (j < m)%nat -> ip N (column U j) v = 0) /\
    in_span_of N (S m) (snoc m U v) x.
Proof.
  intros Hm HU. set (c := fun j => ip N (column U j) x).
  set (r := fun i => x i - combine_cols m U c i).
  assert (Hr : forall j, (j < m)%nat -> ip N (column U j) r = 0).
  { intros j Hj. assert (E : ip N (column U j) r = ip N (column U j) x - ip N (column U j) (combine_cols m U c)).
    { unfold ip, r. rewrite <- rsum_sub. apply rsum_ext. intros; ring. }
    rewrite E, (ip_sym N _ (combine_cols m U c)), ip_comb_l.
    rewrite (rsum_single (n := m) (k := j)); auto.
    - rewrite HU, Nat.eqb_refl by auto. unfold c. ring.
    - intros k Hk Hne. rewrite HU by auto. destruct (Nat.eqb_spec k j); [lia|ring]. }
  destruct (zero_row_dec N r) as [Hz|Hnz].
  - destruct (kernel_nontrivial m N (fun k i => U i k) Hm) as [v [Hv HB]].
    exists (fun i => / sqrt (ip N v v) * v i). split; [now apply unit_scale, ip_self_pos|]. split.
    + intros j Hj. rewrite ip_scale_r. replace (ip N (column U j) v) with 0; [ring|]. symmetry. now apply HB.
    + exists (fun j => if Nat.eqb j m then 0 else c j). intros i Hi. rewrite snoc_comb, Nat.eqb_refl.
      assert (x i = combine_cols m U c i) by (specialize (Hz i Hi); unfold r in Hz; lra).
      rewrite H, Rmult_0_r, Rplus_0_r. apply rsum_ext. intros j Hj. destruct (Nat.eqb_spec j m); [lia|auto].
  - pose proof (ip_self_pos N r Hnz) as Hp.
    exists (fun i => / sqrt (ip N r r) * r i). split; [now apply unit_scale|]. split.
    + intros j Hj. rewrite ip_scale_r, Hr by auto. ring.
    + exists (fun j => if Nat.eqb j m then sqrt (ip N r r) else c j). intros i Hi.
      rewrite snoc_comb, Nat.eqb_refl.
      assert (E : combine_cols m U (fun j => if Nat.eqb j m then sqrt (ip N r r) else c j) i = combine_cols m U c i)
        by (apply rsum_ext; intros j Hj; destruct (Nat.eqb_spec j m); [lia|auto]).
      rewrite E. assert (0 < sqrt (ip N r r)) by now apply sqrt_lt_R0.
      assert (Ex : x i = combine_cols m U c i + r i) by (unfold r; ring).
      rewrite Ex. field. lra.
Qed.

Lemma gram_schmidt N X m : (m <= N)%nat ->
  exists U, orthonormal N m U /\ forall j, (j < m)%nat -> in_span_of N (S j) U (column X j).
Proof.
  induction m as [|m IH]; intros Hm.
  - exists (fun _ _ => 0). split; [intros j k Hj; lia|intros; lia].
  - destruct (IH ltac:(lia)) as [U [HU HX]].
    destruct (extend_on N m U (column X m) ltac:(lia) HU) as [v [Hv [Ho Hs]]].
    exists (snoc m U v). split.
    + intros j k Hj Hk.
      assert (Ec : forall j, column (snoc m U v) j = if Nat.eqb j m then v else column U j)
        by (intros l; unfold column, snoc; destruct (Nat.eqb l m); reflexivity).
      rewrite !Ec. destruct (Nat.eqb_spec j m), (Nat.eqb_spec k m); subst.
      * now rewrite Nat.eqb_refl.
      * rewrite ip_sym, Ho by lia. destruct (Nat.eqb_spec m k); [lia|auto].
      * rewrite Ho by lia. destruct (Nat.eqb_spec j m); [lia|auto].
      * apply HU; lia.
    + intros j Hj. destruct (Nat.eq_dec j m) as [->|]; auto.
      destruct (HX j ltac:(lia)) as [u Hu]. exists u. intros i Hi. rewrite Hu by auto.
      apply rsum_ext. intros l Hl. unfold snoc. destruct (Nat.eqb_spec l m); [lia|auto].
Qed.

Lemma span_more N d e U x : (d <= e)%nat -> in_span_of N d U x -> in_span_of N e U x.
Proof.
  intros Hde [u Hu]. exists (fun j => if Nat.ltb j d then u j else 0). intros i Hi. rewrite Hu by auto.
  unfold combine_cols. replace e with (d + (e - d))%nat by lia. rewrite rsum_split.
  rewrite (rsum_0' (n := (e - d)%nat)).
  - rewrite Rplus_0_r. apply rsum_ext. intros j Hj. destruct (Nat.ltb_spec j d); [auto|lia].
  - intros j Hj. destruct (Nat.ltb_spec (d + j) d); [lia|ring].
Qed.

Lemma svd_exists N k X : (k <= N)%nat -> exists U, svd_factor N k X U.
Proof.
  intros Hk. destruct (gram_schmidt N X N ltac:(lia)) as [U [HU HX]]. exists U. split; auto.
  intros j Hj. apply span_more with (S j); [lia|]. apply HX. lia.
Qed.
Lemma qr_exists N D A : (D <= N)%nat -> exists Q, qr_factor N D A Q.
Proof.
  intros Hk. destruct (gram_schmidt N A D Hk) as [U [HU HX]]. exists U. split; auto.
  intros j Hj. apply span_more with (S j); [lia|]. apply HX. lia.
Qed.
